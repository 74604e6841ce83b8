(** Proofs about the CCBlade object: independence of calls, sectors, totals. *)
From Coq Require Import Reals Bool Arith List Lra Lia.
From Verif Require Import Prelim Num Bem BemGeomProofs Interp Blade BladeSpec FlProofs StationProofs.
Import ListNotations.
Open Scope R_scope.

(** ** Lists *)
Lemma mapM_ok {X Y} (f : X -> res Y) l ys : mapM f l = Ok ys -> Forall2 (fun x y => f x = Ok y) l ys.
Proof.
  revert ys. induction l as [|x l IH]; simpl; intros ys H.
  - injection H; intros <-. constructor.
  - apply bind_ok in H. destruct H as (y & H1 & H2). apply bind_ok in H2. destruct H2 as (ys' & H2 & H3).
    injection H3; intros <-. constructor; auto.
Qed.

Lemma mapM_ext {X Y} (f g : X -> res Y) l : (forall x, In x l -> f x = g x) -> mapM f l = mapM g l.
Proof.
  induction l as [|x l IH]; intros H; simpl; [reflexivity|].
  rewrite (H x) by (left; reflexivity). rewrite IH; [reflexivity|]. intros; apply H; right; assumption.
Qed.

Lemma Forall2_nth_error {X Y} (P : X -> Y -> Prop) l ys i y : Forall2 P l ys -> nth_error ys i = Some y ->
  exists x, nth_error l i = Some x /\ P x y.
Proof.
  intros H. revert i. induction H; intros [|i] E; simpl in *; try discriminate; eauto.
  injection E; intros <-; eauto.
Qed.

(** ** The object after a call in forward mode *)
Lemma repitch_self b : b = repitch b (b_pitch b).
Proof. destruct b; reflexivity. Qed.

Lemma dal_repitch npi bq b q U Om p az :
  distributedAeroLoads npi bq (repitch b q) U Om p az = distributedAeroLoads npi bq b U Om p az.
Proof. reflexivity. Qed.

Lemma dal_object npi bq b U Om p az b' ls : b_inverse b = false ->
  distributedAeroLoads npi bq b U Om p az = Ok (b', ls) -> b' = repitch b (radians p).
Proof.
  intros Hi H. unfold distributedAeroLoads in H. destruct (negb (shapes_ok b)); [discriminate|].
  apply bind_ok in H. destruct H as (out & _ & H). rewrite Hi in H. apply ok_inj in H.
  apply (f_equal fst) in H. exact (eq_sym H).
Qed.

Lemma azimuth_same npi bq azs : forall b q U Om p acc W1 W2, b_inverse b = false ->
  match azimuth_loop npi bq azs (repitch b q) U Om p acc W1, azimuth_loop npi bq azs b U Om p acc W2 with
  | Ok (c1, t1, w1), Ok (c2, t2, w2) =>
      (exists q1, c1 = repitch b q1) /\ (exists q2, c2 = repitch b q2) /\ t1 = t2 /\ (W1 = W2 \/ azs <> [] -> w1 = w2)
  | Raise e1, Raise e2 => e1 = e2
  | _, _ => False
  end.
Proof.
  induction azs as [|az azs IH]; intros b q U Om p acc W1 W2 Hi; cbn [azimuth_loop].
  - split; [eauto|]. split; [exists (b_pitch b); apply repitch_self|]. split; [reflexivity|]. intros [H|H]; [assumption|].
    destruct H; reflexivity.
  - rewrite dal_repitch. destruct (distributedAeroLoads npi bq b U Om p (degrees az)) as [[b' ls]|e] eqn:E; cbn [bind]; [|reflexivity].
    pose proof (dal_object _ _ _ _ _ _ _ _ _ Hi E) as ->.
    change (tot_add (repitch b q) az) with (tot_add b az).
    set (acc' := match acc with Some _ => _ | None => None end).
    specialize (IH b (radians p) U Om p acc' (Some (map o_W ls)) (Some (map o_W ls)) Hi).
    pose proof (IH) as IH'.
    destruct (azimuth_loop npi bq azs (repitch b (radians p)) U Om p acc' (Some (map o_W ls))) as [[[c1 t1] w1]|e1];
      destruct (azimuth_loop npi bq azs b U Om p acc' (Some (map o_W ls))) as [[[c2 t2] w2]|e2]; try contradiction.
    + destruct IH as (H1 & H2 & H3 & H4). split; [exact H1|]. split; [exact H1|]. split; [reflexivity|]. reflexivity.
    + reflexivity.
Qed.

Lemma azimuth_object npi bq azs b U Om p acc W c t w : b_inverse b = false ->
  azimuth_loop npi bq azs b U Om p acc W = Ok (c, t, w) -> exists q, c = repitch b q.
Proof.
  intros Hi H. pose proof (azimuth_same npi bq azs b (b_pitch b) U Om p acc W W Hi) as S.
  rewrite H in S. destruct (azimuth_loop _ _ _ (repitch _ _) _ _ _ _ _) as [[[c1 t1] w1]|]; [|contradiction]. tauto.
Qed.

Lemma azimuths_nonempty n : (1 <= n)%nat -> azimuths n <> [].
Proof. intros H. destruct n; [lia|]. unfold azimuths. simpl. discriminate. Qed.

Lemma condition_same npi bq conds : forall b q W1 W2, b_inverse b = false ->
  match condition_loop npi bq conds (repitch b q) W1, condition_loop npi bq conds b W2 with
  | Ok (c1, t1, w1), Ok (c2, t2, w2) =>
      (exists q1, c1 = repitch b q1) /\ (exists q2, c2 = repitch b q2) /\ t1 = t2 /\
      (W1 = W2 \/ (conds <> [] /\ (1 <= b_nSector b)%nat) -> w1 = w2)
  | Raise e1, Raise e2 => e1 = e2
  | _, _ => False
  end.
Proof.
  induction conds as [|[[U Om] p] conds IH]; intros b q W1 W2 Hi; cbn [condition_loop].
  - split; [eauto|]. split; [exists (b_pitch b); apply repitch_self|]. split; [reflexivity|]. intros [H|[H _]]; [assumption|].
    destruct H; reflexivity.
  - change (b_nSector (repitch b q)) with (b_nSector b).
    pose proof (azimuth_same npi bq (azimuths (b_nSector b)) b q U Om p (Some tot0) W1 W2 Hi) as S.
    destruct (azimuth_loop npi bq (azimuths (b_nSector b)) (repitch b q) U Om p (Some tot0) W1) as [[[c1 t1] w1]|e1];
      destruct (azimuth_loop npi bq (azimuths (b_nSector b)) b U Om p (Some tot0) W2) as [[[c2 t2] w2]|e2]; try contradiction.
    2: { subst. reflexivity. }
    destruct S as ((q1 & ->) & (q2 & ->) & <- & Hw). cbn [bind].
    pose proof (IH b q1 w1 w2 Hi) as I1. pose proof (IH b q2 w2 w2 Hi) as I2.
    destruct (condition_loop npi bq conds (repitch b q1) w1) as [[[d1 s1] v1]|e1];
      destruct (condition_loop npi bq conds (repitch b q2) w2) as [[[d2 s2] v2]|e2];
      destruct (condition_loop npi bq conds b w2) as [[[d3 s3] v3]|e3]; try contradiction; cbn [bind].
    + destruct I1 as (A1 & A2 & A3 & A4), I2 as (B1 & B2 & B3 & B4).
      split; [exact A1|]. split; [exact B1|]. split; [congruence|]. intros H.
      rewrite B4 by (left; reflexivity). apply A4. left. apply Hw.
      destruct H as [H|[_ H]]; [left; assumption|right; apply azimuths_nonempty; assumption].
    + congruence.
Qed.

Lemma condition_object npi bq conds b W c ts w : b_inverse b = false ->
  condition_loop npi bq conds b W = Ok (c, ts, w) -> exists q, c = repitch b q.
Proof.
  intros Hi H. pose proof (condition_same npi bq conds b (b_pitch b) W W Hi) as S.
  rewrite H in S. destruct (condition_loop _ _ _ (repitch _ _) _) as [[[c1 t1] w1]|]; [|contradiction]. tauto.
Qed.

Lemma evaluate_repitch npi bq b q conds : b_inverse b = false ->
  returned (evaluate npi bq (repitch b q) conds) = returned (evaluate npi bq b conds).
Proof.
  intros Hi. unfold evaluate. pose proof (condition_same npi bq conds b q None None Hi) as S.
  destruct (condition_loop npi bq conds (repitch b q) None) as [[[c1 t1] w1]|e1];
    destruct (condition_loop npi bq conds b None) as [[[c2 t2] w2]|e2]; try contradiction; cbn [bind].
  - destruct S as (_ & _ & -> & Hw). rewrite Hw by (left; reflexivity). destruct w2; [|reflexivity].
    unfold returned. cbn [bind fst snd]. reflexivity.
  - subst; reflexivity.
Qed.

Lemma evaluate_object npi bq b conds b' outs w : b_inverse b = false ->
  evaluate npi bq b conds = Ok (b', outs, w) -> exists q, b' = repitch b q.
Proof.
  intros Hi H. unfold evaluate in H. apply bind_ok in H. destruct H as (((c & ts) & W) & H1 & H2).
  destruct W; [|discriminate]. apply ok_inj in H2. apply (f_equal (fun x => fst (fst x))) in H2. cbn [fst] in H2. subst.
  eapply condition_object; eassumption.
Qed.

Lemma reachable_repitch npi bq b0 b : b_inverse b0 = false -> reachable npi bq b0 b -> exists q, b = repitch b0 q.
Proof.
  intros Hi H. induction H as [|b1 conds b2 outs w H IH E|b1 U Om p az b2 ls H IH E|b1 p H IH].
  - exists (b_pitch b0). apply repitch_self.
  - destruct IH as (q & ->). apply evaluate_object in E; [|exact Hi]. destruct E as (q2 & ->). exists q2. reflexivity.
  - destruct IH as (q & ->). apply dal_object in E; [|exact Hi]. subst. eexists. reflexivity.
  - destruct IH as (q & ->). exists p. reflexivity.
Qed.

(** C26, history *)
Lemma history_free : forall npi bq b0 b, b_inverse b0 = false -> reachable npi bq b0 b ->
  (forall conds, returned (evaluate npi bq b conds) = returned (evaluate npi bq b0 conds)) /\
  (forall U Om p az, distributedAeroLoads npi bq b U Om p az = distributedAeroLoads npi bq b0 U Om p az).
Proof.
  intros npi bq b0 b Hi H. apply reachable_repitch in H; [|assumption]. destruct H as (q & ->).
  split; intros; [apply evaluate_repitch; assumption|apply dal_repitch].
Qed.

(** C26, conditions one by one *)
Lemma condition_pointwise npi bq conds : forall b W, b_inverse b = false ->
  match condition_loop npi bq conds b W with
  | Ok (_, ts, _) => Forall2 (fun c t => exists b' w, condition_loop npi bq [c] b None = Ok (b', [t], w) /\
                                ((1 <= b_nSector b)%nat -> w <> None)) conds ts
  | Raise e => exists c, In c conds /\ condition_loop npi bq [c] b None = Raise e
  end.
Proof.
  induction conds as [|[[U Om] p] conds IH]; intros b W Hi; cbn [condition_loop].
  - constructor.
  - pose proof (azimuth_same npi bq (azimuths (b_nSector b)) b (b_pitch b) U Om p (Some tot0) W None Hi) as S.
    rewrite <- repitch_self in S.
    assert (HW : forall b' t w, (1 <= b_nSector b)%nat ->
              azimuth_loop npi bq (azimuths (b_nSector b)) b U Om p (Some tot0) None = Ok (b', t, w) -> w <> None).
    { intros b' t w Hn E. pose proof (azimuth_same npi bq (azimuths (b_nSector b)) b (b_pitch b) U Om p (Some tot0) (Some []) None Hi) as S'.
      rewrite <- repitch_self in S'.
      assert (G : forall azs b U Om p acc W c t w, W <> None -> azimuth_loop npi bq azs b U Om p acc W = Ok (c, t, w) -> w <> None).
      { clear. induction azs as [|az azs IH]; intros b U Om p acc W c t w HW H; cbn [azimuth_loop] in H.
        - apply ok_inj in H. apply (f_equal snd) in H. cbn in H. subst. assumption.
        - apply bind_ok in H. destruct H as ((b' & ls) & _ & H). eapply IH; [|exact H]. discriminate. }
      rewrite E in S'.
      destruct (azimuth_loop npi bq (azimuths (b_nSector b)) b U Om p (Some tot0) (Some [])) as [[[c1 t1] w1]|] eqn:E1; [|contradiction].
      destruct S' as (_ & _ & _ & Hw). rewrite <- Hw by (right; apply azimuths_nonempty; assumption).
      eapply G; [|exact E1]. discriminate. }
    destruct (azimuth_loop npi bq (azimuths (b_nSector b)) b U Om p (Some tot0) W) as [[[c1 t1] w1]|e1] eqn:E1;
      destruct (azimuth_loop npi bq (azimuths (b_nSector b)) b U Om p (Some tot0) None) as [[[c2 t2] w2]|e2] eqn:E2; try contradiction.
    + destruct S as ((q1 & ->) & (q2 & ->) & <- & Hw). cbn [bind].
      pose proof (condition_same npi bq conds b q1 w1 w1 Hi) as S1. specialize (IH b w1 Hi).
      destruct (condition_loop npi bq conds (repitch b q1) w1) as [[[d1 s1] v1]|e1];
        destruct (condition_loop npi bq conds b w1) as [[[d3 s3] v3]|e3]; try contradiction; cbn [bind].
      * destruct S1 as (_ & _ & <- & _). constructor; [|exact IH].
        cbn [condition_loop]. rewrite E2. cbn [bind]. do 2 eexists. split; [reflexivity|]. intros Hn.
        eapply HW; [assumption|reflexivity].
      * subst. destruct IH as (c & Hc & Ec). exists c. split; [right; assumption|exact Ec].
    + subst. cbn [bind]. exists (U, Om, p). split; [left; reflexivity|]. cbn [condition_loop]. rewrite E2. reflexivity.
Qed.

Lemma evaluate_pointwise : forall npi bq b conds, b_inverse b = false -> (1 <= b_nSector b)%nat -> conds <> [] ->
  match evaluate npi bq b conds with
  | Ok (_, outs, _) => Forall2 (fun c o => exists b' w, evaluate npi bq b [c] = Ok (b', [o], w)) conds outs
  | Raise e => exists c, In c conds /\ evaluate npi bq b [c] = Raise e
  end.
Proof.
  intros npi bq b conds Hi Hn Hc. unfold evaluate at 1.
  pose proof (condition_pointwise npi bq conds b None Hi) as P.
  destruct (condition_loop npi bq conds b None) as [[[b' ts] W]|e] eqn:E; cbn [bind].
  - destruct W as [w|].
    + clear E Hc. induction P as [|[[U Om] p] t conds ts (b1 & w1 & E1 & Hw) P IH]; cbn [combine map]; [constructor|].
      constructor; [|exact IH]. exists b1. destruct w1 as [w1|]; [|destruct (Hw Hn); reflexivity]. exists w1.
      unfold evaluate. rewrite E1. cbn [bind combine map]. reflexivity.
    + exfalso.
      assert (G : forall conds b W c t w, W <> None -> condition_loop npi bq conds b W = Ok (c, t, w) -> w <> None).
      { clear. 
        assert (G : forall azs b U Om p acc W c t w, W <> None -> azimuth_loop npi bq azs b U Om p acc W = Ok (c, t, w) -> w <> None).
        { induction azs as [|az azs IH]; intros b U Om p acc W c t w HW H; cbn [azimuth_loop] in H.
          - apply ok_inj in H. apply (f_equal snd) in H. cbn in H. subst. assumption.
          - apply bind_ok in H. destruct H as ((b' & ls) & _ & H). eapply IH; [|exact H]. discriminate. }
        induction conds as [|[[U Om] p] conds IH]; intros b W c t w HW H; cbn [condition_loop] in H.
        - apply ok_inj in H. apply (f_equal snd) in H. cbn in H. subst. assumption.
        - apply bind_ok in H. destruct H as (((b1 & t1) & w1) & H1 & H). apply bind_ok in H. destruct H as (((b2 & t2) & w2) & H2 & H).
          apply ok_inj in H. apply (f_equal snd) in H. cbn in H. subst. eapply IH; [|exact H2]. eapply G; eassumption. }
      destruct conds as [|c conds]; [destruct Hc; reflexivity|].
      pose proof (condition_same npi bq (c :: conds) b (b_pitch b) (Some []) None Hi) as S.
      rewrite <- repitch_self, E in S.
      destruct (condition_loop npi bq (c :: conds) b (Some [])) as [[[c1 t1] w1]|] eqn:E1; [|contradiction].
      destruct S as (_ & _ & _ & Hw). rewrite Hw in E1 by (right; split; [discriminate|assumption]).
      apply G in E1; [apply E1; reflexivity|discriminate].
  - destruct P as (c & Hin & Ec). exists c. split; [assumption|]. unfold evaluate. rewrite Ec. reflexivity.
Qed.

(** The pitch angle left by a single condition. *)
Lemma evaluate_pitch npi bq b U Om p b' outs w : b_inverse b = false -> (1 <= b_nSector b)%nat ->
  evaluate npi bq b [(U, Om, p)] = Ok (b', outs, w) -> b_pitch b' = radians p.
Proof.
  intros Hi Hn H. unfold evaluate in H. cbn [condition_loop] in H.
  apply bind_ok in H. destruct H as (((c & ts) & W) & H1 & H2).
  apply bind_ok in H1. destruct H1 as (((b1 & t) & W1) & H1 & H3).
  cbn [bind] in H3. apply ok_inj in H3. injection H3; intros <- <- <-. clear H3.
  destruct W1; [|discriminate]. apply ok_inj in H2. injection H2; intros _ _ <-. clear H2.
  pose proof (azimuths_nonempty _ Hn) as Hne. revert H1. generalize (Some tot0) as acc. generalize (@None (list fl)) as W0.
  revert Hi. clear Hn. generalize (azimuths (b_nSector b)) Hne. clear Hne. intros azs. revert b.
  induction azs as [|az azs IH]; intros b Hne Hi W0 acc H; [congruence|].
  cbn [azimuth_loop] in H. apply bind_ok in H. destruct H as ((b2 & ls) & H1 & H2).
  pose proof (dal_object _ _ _ _ _ _ _ _ _ Hi H1) as ->.
  destruct azs as [|az2 azs].
  - cbn [azimuth_loop] in H2. apply ok_inj in H2. injection H2; intros _ _ <-. reflexivity.
  - exact (IH (repitch b (radians p)) ltac:(discriminate) Hi _ _ H2).
Qed.
