(** Rotor totals as a mean over azimuth, azimuth periodicity, collective pitch, reversal of yaw and tilt (C84-C86). *)
From Coq Require Import Reals Bool Arith List Lra Lia FunctionalExtensionality.
From Verif Require Import Prelim CSystem CSystemSpec Num Bem Interp Blade BladeSpec StationProofs BladeProofs SectorProofs SimilaritySpec SimilarityProofs.
Import ListNotations.
Open Scope R_scope.

Section Forward.
Variables (npi : R) (bq : rootfinder fl).

(** Contribution of one azimuth to the running totals. *)
Definition step (b : blade) (acc : option totals) (x : R * list (sload fl)) : option totals :=
  match acc, fvals (map o_Np (snd x)), fvals (map o_Tp (snd x)) with
  | Some t, Some Np, Some Tp => Some (tot_add b (fst x) Np Tp t) | _, _, _ => None end.

Lemma azimuth_forward b U Om p : b_inverse b = false -> forall azs q acc W,
  azimuth_loop npi bq azs (repitch b q) U Om p acc W =
  bind (mapM (fun az => section_loads npi bq b U Om p (degrees az)) azs) (fun lss =>
    Ok (match azs with [] => repitch b q | _ => repitch b (radians p) end, fold_left (step b) (combine azs lss) acc,
        last (map (fun ls => Some (map o_W ls)) lss) W)).
Proof.
  intros Hi. induction azs as [|az azs IH]; intros q acc W; [reflexivity|]. cbn [azimuth_loop mapM].
  rewrite dal_repitch. unfold section_loads at 1. destruct (distributedAeroLoads npi bq b U Om p (degrees az)) as [[b1 ls]|e] eqn:E; [|reflexivity].
  cbn [bind snd]. rewrite (dal_object _ _ _ _ _ _ _ _ _ Hi E). rewrite IH.
  destruct (mapM (fun az => section_loads npi bq b U Om p (degrees az)) azs) as [lss|e] eqn:EM; [|reflexivity]. cbn [bind combine fold_left map].
  f_equal. f_equal; [f_equal|].
  - destruct azs; reflexivity.
  - clear EM IH. destruct lss as [|l lss]; [reflexivity|]. generalize (Some (map o_W ls)). intros w. revert l. induction lss as [|l' lss IHl]; intros l; [reflexivity|].
    change (last (map (fun ls => Some (map o_W ls)) (l' :: lss)) w = last (map (fun ls => Some (map o_W ls)) (l' :: lss)) W). apply IHl.
Qed.

(** evaluate for one condition. *)
Lemma evaluate_forward b U Om p : b_inverse b = false -> (1 <= b_nSector b)%nat ->
  evaluate npi bq b [(U, Om, p)] =
  bind (mapM (fun az => section_loads npi bq b U Om p (degrees az)) (azimuths (b_nSector b))) (fun lss =>
    Ok (repitch b (radians p), [option_map (finish b U Om) (fold_left (step b) (combine (azimuths (b_nSector b)) lss) (Some tot0))],
        match last (map (fun ls => Some (map o_W ls)) lss) None with Some w => w | None => [] end)).
Proof.
  intros Hi Hn. unfold evaluate. cbn [condition_loop]. rewrite (repitch_self b) at 1 2. rewrite azimuth_forward by exact Hi.
  change (b_nSector (repitch b (b_pitch b))) with (b_nSector b).
  pose proof (azimuths_nonempty _ Hn) as Hne.
  destruct (mapM _ (azimuths (b_nSector b))) as [lss|e] eqn:EM; [|reflexivity]. cbn [bind].
  assert (HL : length lss = length (azimuths (b_nSector b))) by (symmetry; eapply Forall2_len; apply mapM_ok; exact EM).
  destruct (azimuths (b_nSector b)) as [|az azs]; [contradiction|]. destruct lss as [|ls lss]; [discriminate HL|].
  assert (exists w, last (map (fun ls => Some (map o_W ls)) (ls :: lss)) None = Some w) as [w Ew].
  { clear. revert ls. induction lss as [|l lss IH]; intros ls; [eexists; reflexivity|]. destruct (IH l) as [w E]. exists w. exact E. }
  rewrite Ew. reflexivity.
Qed.

(** The running totals. *)
Lemma fold_none b l : fold_left (step b) l None = None.
Proof. induction l; [reflexivity|]. exact IHl. Qed.
Lemma fold_some b l : forall acc t, fold_left (step b) l acc = Some t ->
  exists u, acc = Some u /\ Forall (fun x => exists Np Tp, fvals (map o_Np (snd x)) = Some Np /\ fvals (map o_Tp (snd x)) = Some Tp) l.
Proof.
  induction l as [|x l IH]; intros acc t H; cbn [fold_left] in H; [exists t; auto|].
  destruct acc as [u|]; [|change (step b None x) with (@None totals) in H; rewrite fold_none in H; discriminate].
  destruct (IH _ _ H) as (u' & E & F). exists u. split; [reflexivity|]. constructor; [|exact F]. unfold step in E.
  destruct (fvals (map o_Np (snd x))) as [Np|]; [|discriminate]. destruct (fvals (map o_Tp (snd x))) as [Tp|]; [|discriminate]. eauto.
Qed.
Lemma fold_finite b l : Forall (fun x => exists Np Tp, fvals (map o_Np (snd x)) = Some Np /\ fvals (map o_Tp (snd x)) = Some Tp) l ->
  forall u, exists t, fold_left (step b) l (Some u) = Some t.
Proof.
  induction 1 as [|x l (Np & Tp & E1 & E2) _ IH]; intros u; [eexists; reflexivity|]. cbn [fold_left]. unfold step at 2. rewrite E1, E2. apply IH.
Qed.

Definition vals (o : option (list R)) : list R := match o with Some l => l | None => [] end.
Definition NpOf (ls : list (sload fl)) := vals (fvals (map o_Np ls)).
Definition TpOf (ls : list (sload fl)) := vals (fvals (map o_Tp ls)).
Definition isum (b : blade) (f : R -> vec3 -> vec3 -> R) (l : list (R * list (sload fl))) : R :=
  fold_right (fun x a => f (fst x) (blade_force b (NpOf (snd x)) (TpOf (snd x))) (blade_moment b (NpOf (snd x)) (TpOf (snd x))) + a) 0 l.

Lemma tot_add_parts b az Np Tp t : let B := INR (b_B b) / INR (b_nSector b) in let F := blade_force b Np Tp in let M := blade_moment b Np Tp in
  let u := tot_add b az Np Tp t in
  t_T u = t_T t + B * c1 F /\ t_Y u = t_Y t + B * (c2 F * cos az - c3 F * sin az) /\ t_Z u = t_Z t + B * (c3 F * cos az + c2 F * sin az) /\
  t_Q u = t_Q t + B * c1 M /\ t_My u = t_My t + B * (c2 M * cos az) /\ t_Mz u = t_Mz t + B * (c2 M * sin az) /\
  t_Mb u = t_Mb t + / INR (b_nSector b) * c2 M.
Proof.
  cbv zeta. unfold tot_add, blade_force, blade_moment. destruct (thrustTorque _ _ _ _ _ _ _ _ _ _ _) as [[[[T Y] Z] Q] M].
  unfold c1, c2, c3. cbn [t_T t_Y t_Z t_Q t_My t_Mz t_Mb fst snd]. unfold Rdiv. repeat match goal with |- _ /\ _ => split end; ring.
Qed.

Lemma fold_sum b l : forall u t, fold_left (step b) l (Some u) = Some t ->
  let B := INR (b_B b) / INR (b_nSector b) in
  t_T t = t_T u + B * isum b (fun az F M => c1 F) l /\
  t_Y t = t_Y u + B * isum b (fun az F M => c2 F * cos az - c3 F * sin az) l /\
  t_Z t = t_Z u + B * isum b (fun az F M => c3 F * cos az + c2 F * sin az) l /\
  t_Q t = t_Q u + B * isum b (fun az F M => c1 M) l /\
  t_My t = t_My u + B * isum b (fun az F M => c2 M * cos az) l /\
  t_Mz t = t_Mz u + B * isum b (fun az F M => c2 M * sin az) l /\
  t_Mb t = t_Mb u + / INR (b_nSector b) * isum b (fun az F M => c2 M) l.
Proof.
  induction l as [|[az ls] l IH]; intros u t H; cbn [fold_left] in H.
  { injection H as <-. cbn [isum fold_right]. repeat match goal with |- _ /\ _ => split end; ring. }
  destruct (fold_some b l _ _ H) as (u' & E & _). pose proof E as E'. unfold step in E. cbn [fst snd] in E.
  destruct (fvals (map o_Np ls)) as [Np|] eqn:E1; [|discriminate]. destruct (fvals (map o_Tp ls)) as [Tp|] eqn:E2; [|discriminate].
  injection E as E. rewrite E' in H. specialize (IH _ _ H). rewrite <- E in IH.
  destruct (tot_add_parts b az Np Tp u) as (P1 & P2 & P3 & P4 & P5 & P6 & P7). cbv zeta in IH. rewrite P1, P2, P3, P4, P5, P6, P7 in IH.
  destruct IH as (Q1 & Q2 & Q3 & Q4 & Q5 & Q6 & Q7).
  assert (HN : NpOf ls = Np) by (unfold NpOf; rewrite E1; reflexivity). assert (HT : TpOf ls = Tp) by (unfold TpOf; rewrite E2; reflexivity).
  cbv zeta. unfold isum in *. cbn [fold_right fst snd]. rewrite HN, HT, Q1, Q2, Q3, Q4, Q5, Q6, Q7.
  repeat match goal with |- _ /\ _ => split end; ring.
Qed.
End Forward.

(** ** The mean over azimuth *)
Lemma fvals_spec l vs : fvals l = Some vs -> Forall2 (fun x v => fval x = Some v) l vs.
Proof.
  revert vs. induction l as [|x l IH]; intros vs H; cbn [fvals] in H; [injection H as <-; constructor|].
  destruct (fval x) eqn:E; [|discriminate]. destruct (fvals l); [|discriminate]. injection H as <-. constructor; auto.
Qed.
Lemma Forall2_map_l {X Y Z} (f : X -> Y) (P : Y -> Z -> Prop) l l' : Forall2 P (map f l) l' -> Forall2 (fun x z => P (f x) z) l l'.
Proof. revert l'. induction l as [|x l IH]; intros l' H; inversion H; subst; constructor; auto. Qed.

Lemma degrees_az k n : degrees (INR k * (2 * PI / INR n)) = INR k * 360 / INR n.
Proof. unfold degrees, Rdiv. replace (INR k * (2 * PI * / INR n) * (180 * / PI)) with (INR k * 360 * / INR n * (PI * / PI)) by ring. rewrite Rinv_r by apply PI_neq0. ring. Qed.

Lemma isum_total b f (n : nat) (lss : list (list (sload fl))) : forall m, length lss = n ->
  isum b f (combine (map (fun k => INR k * (2 * PI / INR m)) (seq 0 n)) lss) =
  total n (fun k => f (INR k * (2 * PI / INR m)) (blade_force b (NpOf (nth k lss [])) (TpOf (nth k lss []))) (blade_moment b (NpOf (nth k lss [])) (TpOf (nth k lss [])))).
Proof.
  intros m. revert lss. induction n as [|n IH]; intros lss HL; [reflexivity|].
  destruct (exists_last (l := lss)) as (l' & x & ->); [intros ->; discriminate HL|]. rewrite app_length in HL. cbn in HL.
  assert (HL' : length l' = n) by lia. rewrite seq_S, map_app. cbn [plus map].
  assert (EC : forall (A B : Type) (a : list A) (x : A) (c : list B) (y : B), length a = length c -> combine (a ++ [x]) (c ++ [y]) = combine a c ++ [(x, y)]).
  { clear. induction a as [|u a IH]; intros x [|v c] y E; try discriminate; [reflexivity|]. cbn. f_equal. apply IH. injection E. auto. }
  rewrite EC by (rewrite map_length, seq_length; lia).
  assert (EI : forall l1 l2, isum b f (l1 ++ l2) = isum b f l1 + isum b f l2).
  { clear. unfold isum. induction l1 as [|u l1 IH]; intros l2; cbn [app fold_right]; [ring|]. rewrite IH. ring. }
  rewrite EI, (IH l' HL'). cbn [total]. f_equal.
  - assert (TE : forall j g h, (forall k, (k < j)%nat -> g k = h k) -> total j g = total j h).
    { clear. induction j as [|j IH]; intros g h E; [reflexivity|]. cbn. rewrite (IH g h) by (intros; apply E; lia). rewrite (E j) by lia. reflexivity. }
    apply TE. intros k Hk. rewrite app_nth1 by lia. reflexivity.
  - unfold isum. cbn [fold_right fst snd]. rewrite app_nth2, HL', Nat.sub_diag by lia. cbn [nth]. ring.
Qed.
Lemma total_ext j g h : (forall k, (k < j)%nat -> g k = h k) -> total j g = total j h.
Proof. induction j as [|j IH]; intros E; [reflexivity|]. cbn. rewrite IH by (intros; apply E; lia). rewrite (E j) by lia. reflexivity. Qed.

Lemma hub_frame az v : let a := radians az in in_hub_frame az v = (c1 v, c2 v * cos a - c3 v * sin a, c3 v * cos a + c2 v * sin a).
Proof.
  destruct v as [[x y] z]. unfold in_hub_frame, coords. cbn [apply fold_left of_coords apply1]. unfold azimuthToHub, rot_yzx, rotateAboutZ.
  cbn [vx vy vz fresh c1 c2 c3 fst snd]. cbv zeta. replace (radians (az * -1)) with (- radians az) by (unfold radians; ring). rewrite cos_neg, sin_neg.
  unfold c1, c2, c3. cbn [fst snd]. repeat apply (f_equal2 pair); ring.
Qed.

Lemma mean_one_condition npi bq b U Om p b' y w : b_inverse b = false -> (1 <= b_nSector b)%nat ->
  evaluate npi bq b [(U, Om, p)] = Ok (b', [Some y], w) ->
  let n := b_nSector b in let az k := INR k * 360 / INR n in
  exists (ls : nat -> list (sload fl)) (Np Tp : nat -> list R),
    (forall k, (k < n)%nat -> section_loads npi bq b U Om p (az k) = Ok (ls k) /\
       Forall2 (fun l v => fval (o_Np l) = Some v) (ls k) (Np k) /\ Forall2 (fun l v => fval (o_Tp l) = Some v) (ls k) (Tp k)) /\
    let F k := in_hub_frame (az k) (blade_force b (Np k) (Tp k)) in
    let M k := in_hub_frame (az k) (blade_moment b (Np k) (Tp k)) in
    let mean f := total n f / INR n in
    let t := y_tot y in
    t_T t = INR (b_B b) * mean (fun k => c1 (F k)) /\ t_Y t = INR (b_B b) * mean (fun k => c2 (F k)) /\ t_Z t = INR (b_B b) * mean (fun k => c3 (F k)) /\
    t_Q t = INR (b_B b) * mean (fun k => c1 (M k)) /\ t_My t = INR (b_B b) * mean (fun k => c2 (M k)) /\ t_Mz t = INR (b_B b) * mean (fun k => c3 (M k)) /\
    t_Mb t = mean (fun k => c2 (blade_moment b (Np k) (Tp k))).
Proof.
  intros Hi Hn E n az. rewrite evaluate_forward in E by assumption.
  apply bind_ok in E. destruct E as (lss & EM & E). apply ok_inj in E. apply pair_equal_spec in E. destruct E as [E _]. apply pair_equal_spec in E. destruct E as [_ E].
  injection E as E. destruct (fold_left (step b) _ (Some tot0)) as [t|] eqn:ET; [|discriminate]. cbn in E. injection E as E.
  assert (HL : length lss = n) by (unfold n; rewrite <- (azimuths_length (b_nSector b)); symmetry; eapply Forall2_len; apply mapM_ok; exact EM).
  destruct (fold_some b _ _ _ ET) as (_ & _ & FF).
  exists (fun k => nth k lss []), (fun k => NpOf (nth k lss [])), (fun k => TpOf (nth k lss [])). split.
  - intros k Hk. pose proof (mapM_ok _ _ _ EM) as F2.
    assert (NE : nth_error lss k = Some (nth k lss [])) by (apply nth_error_nth'; lia).
    destruct (Forall2_nth_error _ _ _ _ _ F2 NE) as (a & Ea & Eq). unfold azimuths in Ea.
    rewrite nth_error_map in Ea. rewrite (nth_error_nth' (seq 0 (b_nSector b)) O) in Ea by (rewrite seq_length; exact Hk). rewrite seq_nth in Ea by exact Hk. cbn in Ea.
    injection Ea as <-. rewrite degrees_az in Eq. split; [exact Eq|].
    assert (IN : In (INR k * (2 * PI / INR (b_nSector b)), nth k lss []) (combine (azimuths (b_nSector b)) lss)).
    { apply (nth_error_In _ k). clear - HL Hk. revert HL Hk. unfold n. rewrite <- (azimuths_length (b_nSector b)) at 1 2. 
      assert (G : forall (A B : Type) (l : list A) (l' : list B) j da db, length l' = length l -> (j < length l)%nat -> nth_error (combine l l') j = Some (nth j l da, nth j l' db)).
      { clear. induction l as [|x l IH]; intros [|x' l'] j da db E J; cbn in *; try lia. destruct j; [reflexivity|]. apply IH; lia. }
      intros HL Hk. rewrite (G _ _ _ _ _ 0 [] HL Hk). f_equal. f_equal. unfold azimuths. rewrite azimuths_length in Hk.
      rewrite (nth_indep _ 0 (INR 0 * (2 * PI / INR (b_nSector b)))) by (rewrite map_length, seq_length; exact Hk).
      rewrite (map_nth (fun j => INR j * (2 * PI / INR (b_nSector b)))). rewrite seq_nth by exact Hk. reflexivity. }
    rewrite Forall_forall in FF. destruct (FF _ IN) as (Np & Tp & E1 & E2). cbn [snd] in *. unfold NpOf, TpOf. rewrite E1, E2. cbn [vals].
    split; [apply (Forall2_map_l o_Np (fun x v => fval x = Some v))|apply (Forall2_map_l o_Tp (fun x v => fval x = Some v))]; apply fvals_spec; assumption.
  - cbv zeta. rewrite <- E. cbn [y_tot finish]. destruct (fold_sum b _ _ _ ET) as (Q1 & Q2 & Q3 & Q4 & Q5 & Q6 & Q7). cbv zeta in Q1, Q2, Q3, Q4, Q5, Q6, Q7.
    unfold azimuths in Q1, Q2, Q3, Q4, Q5, Q6, Q7. rewrite !isum_total in Q1, Q2, Q3, Q4, Q5, Q6, Q7 by exact HL. fold n in Q1, Q2, Q3, Q4, Q5, Q6, Q7. cbn [tot0 t_T t_Y t_Z t_Q t_My t_Mz t_Mb] in Q1, Q2, Q3, Q4, Q5, Q6, Q7.
    assert (RA : forall k, radians (az k) = INR k * (2 * PI / INR n)) by (intros k; unfold az; rewrite <- degrees_az; apply radians_degrees).
    rewrite Q1, Q2, Q3, Q4, Q5, Q6, Q7.
    assert (ZM : forall u v, c3 (blade_moment b u v) = 0).
    { intros u v. unfold blade_moment. destruct (thrustTorque _ _ _ _ _ _ _ _ _ _ _) as [[[[? ?] ?] ?] ?]. reflexivity. }
    assert (G : forall c f g, (forall k, (k < n)%nat -> f k = g k) -> 0 + c / INR n * total n f = c * (total n g / INR n)).
    { intros c f g H. rewrite (total_ext n f g H). unfold Rdiv. ring. }
    repeat match goal with |- _ /\ _ => split end; try (apply G; intros k Hk; rewrite hub_frame; cbv zeta; rewrite RA; unfold c1, c2, c3; cbn [fst snd]; fold c1 c2 c3; reflexivity).
    + apply G; intros k Hk. rewrite hub_frame. cbv zeta. rewrite RA, ZM. unfold c2 at 2. cbn [fst snd]. ring.
    + apply G; intros k Hk. rewrite hub_frame. cbv zeta. rewrite RA, ZM. unfold c3. cbn [fst snd]. ring.
    + unfold Rdiv. ring.
Qed.

Lemma outs_pointwise npi bq b conds b' outs w i c o : b_inverse b = false -> (1 <= b_nSector b)%nat ->
  evaluate npi bq b conds = Ok (b', outs, w) -> nth_error conds i = Some c -> nth_error outs i = Some o ->
  exists b'' w', evaluate npi bq b [c] = Ok (b'', [o], w').
Proof.
  intros Hi Hn E Ec Eo. assert (Hc : conds <> []) by (intros ->; destruct i; discriminate).
  pose proof (evaluate_pointwise npi bq b conds Hi Hn Hc) as P. rewrite E in P.
  destruct (Forall2_nth_error _ _ _ _ _ P Eo) as (c' & Ec' & H). rewrite Ec in Ec'. injection Ec' as <-. exact H.
Qed.

Lemma azimuthal_mean npi bq b conds b' outs w i U Om p y : b_inverse b = false -> (1 <= b_nSector b)%nat ->
  evaluate npi bq b conds = Ok (b', outs, w) -> nth_error conds i = Some (U, Om, p) -> nth_error outs i = Some (Some y) ->
  let n := b_nSector b in let az k := INR k * 360 / INR n in
  exists (ls : nat -> list (sload fl)) (Np Tp : nat -> list R),
    (forall k, (k < n)%nat -> section_loads npi bq b U Om p (az k) = Ok (ls k) /\
       Forall2 (fun l v => fval (o_Np l) = Some v) (ls k) (Np k) /\ Forall2 (fun l v => fval (o_Tp l) = Some v) (ls k) (Tp k)) /\
    let F k := in_hub_frame (az k) (blade_force b (Np k) (Tp k)) in
    let M k := in_hub_frame (az k) (blade_moment b (Np k) (Tp k)) in
    let mean f := total n f / INR n in
    let t := y_tot y in
    t_T t = INR (b_B b) * mean (fun k => c1 (F k)) /\ t_Y t = INR (b_B b) * mean (fun k => c2 (F k)) /\ t_Z t = INR (b_B b) * mean (fun k => c3 (F k)) /\
    t_Q t = INR (b_B b) * mean (fun k => c1 (M k)) /\ t_My t = INR (b_B b) * mean (fun k => c2 (M k)) /\ t_Mz t = INR (b_B b) * mean (fun k => c3 (M k)) /\
    t_Mb t = mean (fun k => c2 (blade_moment b (Np k) (Tp k))).
Proof.
  intros Hi Hn E Ec Eo. destruct (outs_pointwise _ _ _ _ _ _ _ _ _ _ Hi Hn E Ec Eo) as (b'' & w' & E'). exact (mean_one_condition npi bq b U Om p b'' y w' Hi Hn E').
Qed.

(** ** Azimuth periodicity *)
Lemma wind_period b U Om az : wind b U Om (az + 2 * PI) = wind b U Om az.
Proof.
  assert (S : sin (az + 2 * PI) = sin az) by (rewrite sin_plus, sin_2PI, cos_2PI; ring).
  assert (C : cos (az + 2 * PI) = cos az) by (rewrite cos_plus, sin_2PI, cos_2PI; ring).
  unfold wind, windComponents. rewrite S, C. reflexivity.
Qed.
Lemma dal_period npi bq b U Om p az : distributedAeroLoads npi bq b U Om p (az + 360) = distributedAeroLoads npi bq b U Om p az.
Proof.
  unfold distributedAeroLoads. replace (radians (az + 360)) with (radians az + 2 * PI) by (unfold radians; field). rewrite wind_period. reflexivity.
Qed.

(** ** Transport of evaluate between two objects *)
Section Transport.
Variables (npi : R) (bq : rootfinder fl) (b b' : blade) (f : R * R * R -> R * R * R).
Hypothesis Hi : b_inverse b = false.
Hypothesis Hi' : b_inverse b' = false.
Hypothesis Hn : b_nSector b' = b_nSector b.
Let S (o : blade) (c : R * R * R) az := section_loads npi bq o (fst (fst c)) (snd (fst c)) (snd c) az.
Hypothesis HL : forall c az, S b (f c) az = S b' c az.
Hypothesis HT : forall az Np Tp t, tot_add b az Np Tp t = tot_add b' az Np Tp t.
Hypothesis HF : forall c t, finish b (fst (fst (f c))) (snd (fst (f c))) t = finish b' (fst (fst c)) (snd (fst c)) t.

Lemma step_same x acc : step b acc x = step b' acc x.
Proof. unfold step. destruct acc; [|reflexivity]. destruct (fvals _); [|reflexivity]. destruct (fvals _); [|reflexivity]. rewrite HT. reflexivity. Qed.
Lemma fold_same l : forall acc, fold_left (step b) l acc = fold_left (step b') l acc.
Proof. induction l as [|x l IH]; intros acc; [reflexivity|]. cbn [fold_left]. rewrite step_same. apply IH. Qed.

Lemma loop_same c azs q q' acc W :
  match azimuth_loop npi bq azs (repitch b q) (fst (fst (f c))) (snd (fst (f c))) (snd (f c)) acc W,
        azimuth_loop npi bq azs (repitch b' q') (fst (fst c)) (snd (fst c)) (snd c) acc W with
  | Ok (c1, t1, w1), Ok (c2, t2, w2) => (exists r, c1 = repitch b r) /\ (exists r, c2 = repitch b' r) /\ t1 = t2 /\ w1 = w2
  | Raise e1, Raise e2 => e1 = e2 | _, _ => False end.
Proof.
  rewrite !azimuth_forward by assumption.
  replace (mapM (fun az => section_loads npi bq b (fst (fst (f c))) (snd (fst (f c))) (snd (f c)) (degrees az)) azs)
    with (mapM (fun az => section_loads npi bq b' (fst (fst c)) (snd (fst c)) (snd c) (degrees az)) azs)
    by (apply mapM_ext; intros az _; symmetry; apply (HL c)).
  destruct (mapM _ azs) as [lss|e]; [|reflexivity]. cbn [bind]. rewrite fold_same. destruct azs; eauto 8.
Qed.

Lemma conditions_same conds : forall q q' W,
  match condition_loop npi bq (map f conds) (repitch b q) W, condition_loop npi bq conds (repitch b' q') W with
  | Ok (c1, t1, w1), Ok (c2, t2, w2) => t1 = t2 /\ w1 = w2
  | Raise e1, Raise e2 => e1 = e2 | _, _ => False end.
Proof.
  induction conds as [|c conds IH]; intros q q' W; [cbn; auto|]. cbn [map condition_loop].
  destruct (f c) as [[U1 O1] p1] eqn:Ef, c as [[U2 O2] p2] eqn:Ec. pose proof (loop_same c (azimuths (b_nSector b)) q q' (Some tot0) W) as L.
  rewrite <- Ec in Ef. rewrite Ef in L. rewrite Ec in L. cbn [fst snd] in L.
  change (b_nSector (repitch b q)) with (b_nSector b). change (b_nSector (repitch b' q')) with (b_nSector b'). rewrite Hn.
  destruct (azimuth_loop npi bq _ (repitch b q) U1 O1 p1 _ _) as [[[o1 t1] w1]|e1], (azimuth_loop npi bq _ (repitch b' q') U2 O2 p2 _ _) as [[[o2 t2] w2]|e2];
    try contradiction; [|exact L].
  destruct L as ((r1 & ->) & (r2 & ->) & <- & <-). cbn [bind]. specialize (IH r1 r2 w1).
  destruct (condition_loop npi bq (map f conds) (repitch b r1) w1) as [[[o1 ts1] w1']|e1], (condition_loop npi bq conds (repitch b' r2) w1) as [[[o2 ts2] w2']|e2];
    try contradiction; [|exact IH]. destruct IH as [<- <-]. cbn. auto.
Qed.

Lemma evaluate_same conds : returned (evaluate npi bq b (map f conds)) = returned (evaluate npi bq b' conds).
Proof.
  unfold evaluate. pose proof (conditions_same conds (b_pitch b) (b_pitch b') None) as C. rewrite <- !repitch_self in C.
  destruct (condition_loop npi bq (map f conds) b None) as [[[o1 ts1] w1]|e1], (condition_loop npi bq conds b' None) as [[[o2 ts2] w2]|e2];
    try contradiction; [|cbn; rewrite C; reflexivity]. destruct C as [<- <-]. cbn [bind]. destruct w1 as [w|]; [|reflexivity].
  unfold returned. cbn [bind fst snd]. f_equal. f_equal. revert ts1. induction conds as [|c conds IH]; intros ts; [reflexivity|]. destruct ts as [|t ts]; [reflexivity|].
  cbn [map combine]. rewrite IH. f_equal. destruct (f c) as [[U1 O1] p1] eqn:Ef, c as [[U2 O2] p2] eqn:Ec. pose proof (fun t => HF c t) as G. rewrite <- Ec in Ef.
  rewrite Ef, Ec in G. cbn [fst snd] in G. destruct t; [|reflexivity]. cbn. rewrite G. reflexivity.
Qed.
End Transport.

(** ** Collective pitch *)
Definition twist_blade (d : R) (b : blade) : blade :=
  set_call b (map (fun t => fadd t (Fin (radians d))) (b_theta b)) (b_pitch b).
Lemma construct_twisted d g : construct (twisted d g) = match construct g with Ok b => Ok (twist_blade d b) | Raise e => Raise e end.
Proof.
  unfold construct, twisted.
  cbn [g_r g_chord g_theta g_af g_Rhub g_Rtip g_B g_rho g_mu g_precone g_tilt g_yaw g_shearExp g_hubHt g_nSector g_precurve g_precurveTip g_presweep g_presweepTip g_opts g_iterRe].
  destruct (Nat.ltb (length (g_r g)) 2); [reflexivity|]. cbv zeta. destruct (curve_error _ _ _ _ _); [reflexivity|]. unfold twist_blade, set_call.
  cbn [b_r b_chord b_theta b_af b_Rhub b_Rtip b_B b_rho b_mu b_precone b_tilt b_yaw b_shearExp b_hubHt b_opts b_iterRe b_precurve b_precurveTip b_presweep b_presweepTip b_rotorR b_nSector b_inverse b_cl b_cd b_alpha b_pitch].
  replace (map (fun x => Fin (radians x)) (map (fun t => t + d) (g_theta g))) with (map (fun t => fadd t (Fin (radians d))) (map (fun x => Fin (radians x)) (g_theta g))); [reflexivity|].
  rewrite !map_map. apply map_ext. intros t. cbn. f_equal. unfold radians. ring.
Qed.

Definition with_pitch (rt : rotor fl) (q : fl) : rotor fl :=
  mkRotor (rt_Rhub rt) (rt_Rtip rt) (rt_B rt) (rt_rho rt) (rt_mu rt) (rt_opts rt) (rt_iterRe rt) q.
Section Pitch.
Variables (rt : rotor fl) (r chord th th' p p' : fl) (af : airfoil fl) (Vx Vy : fl).
Hypothesis Hsum : fadd th p = fadd th' p'.
Let sc := mkSect r chord th af Vx Vy.
Let sc' := mkSect r chord th' af Vx Vy.

Lemma pitch_wind phi a ap : relativeWind phi a ap Vx Vy p chord th (rt_rho rt) (rt_mu rt) = relativeWind phi a ap Vx Vy p' chord th' (rt_rho rt) (rt_mu rt).
Proof. unfold relativeWind. cbn [nadd fl_arith]. rewrite Hsum. reflexivity. Qed.
Lemma pitch_pass phi a ap : bem_pass (with_pitch rt p) sc phi a ap = bem_pass (with_pitch rt p') sc' phi a ap.
Proof. unfold bem_pass, with_pitch. cbn [rt_Rhub rt_Rtip rt_B rt_rho rt_mu rt_opts rt_iterRe rt_pitch sc sc' s_r s_chord s_theta s_af s_Vx s_Vy]. rewrite pitch_wind. reflexivity. Qed.
Lemma pitch_loop phi m : bem_loop (with_pitch rt p) sc phi m = bem_loop (with_pitch rt p') sc' phi m.
Proof. induction m as [|m IH]; cbn [bem_loop]; [apply pitch_pass|]. rewrite IH. destruct (bem_loop _ sc' phi m) as [[[[fz a] ap] cl] cd]. apply pitch_pass. Qed.
Lemma pitch_station npi bq rot : solve_station npi bq (with_pitch rt p) rot sc = solve_station npi bq (with_pitch rt p') rot sc'.
Proof.
  unfold solve_station. change (rt_iterRe (with_pitch rt p)) with (rt_iterRe rt). change (rt_iterRe (with_pitch rt p')) with (rt_iterRe rt).
  assert (EF : forall m, errf (with_pitch rt p) sc m = errf (with_pitch rt p') sc' m) by (intros m; apply functional_extensionality; intros phi; unfold errf; rewrite pitch_loop; reflexivity).
  assert (EL : forall phi, loads (with_pitch rt p) phi rot sc = loads (with_pitch rt p') phi rot sc').
  { intros phi. unfold loads, runBEM. cbn [with_pitch rt_iterRe rt_pitch rt_rho rt_mu sc sc' s_Vx s_Vy s_chord s_theta s_af]. destruct (andb _ _); [|reflexivity].
    fold (with_pitch rt p). fold (with_pitch rt p'). fold sc. fold sc'.
    assert (K : forall (m : res (fl * fl * fl * fl)), (bind m (fun ind => let '(a, ap, cl, cd) := ind in
        let '(alpha, W, Re) := relativeWind phi a ap Vx Vy p chord th (rt_rho rt) (rt_mu rt) in
        Ok (mkLoad a ap (nmul (nmul (nadd (nmul cl (ncos phi)) (nmul cd (nsin phi))) (nmul (nmul (ofR (1 / 2)) (rt_rho rt)) (nmul W W))) chord)
           (nmul (nmul (nsub (nmul cl (nsin phi)) (nmul cd (ncos phi))) (nmul (nmul (ofR (1 / 2)) (rt_rho rt)) (nmul W W))) chord) (rad2deg alpha) cl cd
           (nadd (nmul cl (ncos phi)) (nmul cd (nsin phi))) (nsub (nmul cl (nsin phi)) (nmul cd (ncos phi))) (nmul (nmul (ofR (1 / 2)) (rt_rho rt)) (nmul W W)) W Re))) =
       (bind m (fun ind => let '(a, ap, cl, cd) := ind in
        let '(alpha, W, Re) := relativeWind phi a ap Vx Vy p' chord th' (rt_rho rt) (rt_mu rt) in
        Ok (mkLoad a ap (nmul (nmul (nadd (nmul cl (ncos phi)) (nmul cd (nsin phi))) (nmul (nmul (ofR (1 / 2)) (rt_rho rt)) (nmul W W))) chord)
           (nmul (nmul (nsub (nmul cl (nsin phi)) (nmul cd (ncos phi))) (nmul (nmul (ofR (1 / 2)) (rt_rho rt)) (nmul W W))) chord) (rad2deg alpha) cl cd
           (nadd (nmul cl (ncos phi)) (nmul cd (nsin phi))) (nsub (nmul cl (nsin phi)) (nmul cd (ncos phi))) (nmul (nmul (ofR (1 / 2)) (rt_rho rt)) (nmul W W)) W Re)))).
    { intros [[[[a ap] cl] cd]|e]; [|reflexivity]. cbn [bind]. rewrite pitch_wind. reflexivity. }
    rewrite <- K. destruct rot.
    - destruct (rt_iterRe rt) as [|m]; [reflexivity|]. rewrite pitch_loop. reflexivity.
    - rewrite pitch_wind. reflexivity. }
  destruct rot; [|cbn [bind]; rewrite EL; reflexivity]. destruct (rt_iterRe rt); [reflexivity|]. rewrite EF.
  destruct (solve npi bq _) as [phi|]; [|reflexivity]. cbn [bind]. rewrite EL. reflexivity.
Qed.
End Pitch.

Lemma dal_twisted npi bq d b U Om p az : b_inverse b = false -> (forall t, In t (b_theta b) -> exists v, t = Fin v) ->
  section_loads npi bq b U Om (p + d) az = section_loads npi bq (twist_blade d b) U Om p az.
Proof.
  intros Hi Ht. unfold section_loads, distributedAeroLoads. change (shapes_ok (twist_blade d b)) with (shapes_ok b). destruct (negb (shapes_ok b)); [reflexivity|].
  cbv zeta. change (wind (twist_blade d b)) with (wind b). change (length (b_r (twist_blade d b))) with (length (b_r b)).
  set (V := wind b U Om (radians az)).
  assert (E : forall i, bind (station_i npi bq b (radians (p + d)) Om V i) (fun x => Ok (snd x)) =
                        bind (station_i npi bq (twist_blade d b) (radians p) Om V i) (fun x => Ok (snd x))).
  { intros i. unfold station_i. cbn [twist_blade set_call b_r b_chord b_af b_inverse b_theta]. rewrite Hi.
    destruct (pyget (b_r b) i) as [r|]; [|reflexivity]. cbn [bind]. destruct (pyget (b_chord b) i) as [c|]; [|reflexivity]. cbn [bind].
    destruct (pyget (b_af b) i) as [af|]; [|reflexivity]. cbn [bind]. unfold pyget. rewrite nth_error_map.
    destruct (nth_error (b_theta b) i) as [t|] eqn:Et; [|reflexivity]. cbn [option_map bind].
    destruct (Ht t (nth_error_In _ _ Et)) as [v ->].
    pose proof (pitch_station (rotor_of b 0) (Fin r) (Fin c) (Fin v) (fadd (Fin v) (Fin (radians d))) (Fin (radians (p + d))) (Fin (radians p)) af
      (Fin (fst V i)) (Fin (snd V i)) ltac:(cbn; f_equal; unfold radians; ring) npi bq (negb (reqb Om 0))) as P.
    unfold with_pitch, rotor_of in *. cbn [rt_Rhub rt_Rtip rt_B rt_rho rt_mu rt_opts rt_iterRe rt_pitch] in P. cbn [twist_blade set_call b_Rhub b_Rtip b_B b_rho b_mu b_opts b_iterRe]. 
    assert (K : forall (m m' : res (sload fl)) (t t' : fl), m = m' -> bind (bind m (fun l => Ok (t, l))) (fun x => Ok (snd x)) = bind (bind m' (fun l => Ok (t', l))) (fun x => Ok (snd x)))
      by (intros m m' t t' <-; destruct m; reflexivity).
    apply K. exact P. }
  assert (M : forall l, bind (mapM (station_i npi bq b (radians (p + d)) Om V) l) (fun o => Ok (map snd o)) =
                        bind (mapM (station_i npi bq (twist_blade d b) (radians p) Om V) l) (fun o => Ok (map snd o))).
  { induction l as [|i l IH]; [reflexivity|]. cbn [mapM]. specialize (E i).
    destruct (station_i npi bq b _ Om V i) as [x|], (station_i npi bq (twist_blade d b) _ Om V i) as [x'|]; cbn [bind] in *; try discriminate; [|injection E as ->; reflexivity].
    apply ok_inj in E. destruct (mapM (station_i npi bq b _ Om V) l) as [y|], (mapM (station_i npi bq (twist_blade d b) _ Om V) l) as [y'|]; cbn [bind] in *; try discriminate; [|exact IH].
    apply ok_inj in IH. cbn [map]. rewrite E, IH. reflexivity. }
  specialize (M (seq 0 (length (b_r b)))).
  destruct (mapM _ _) as [x|] in M |- *; destruct (mapM _ _) as [x'|] in M |- *; cbn [bind snd] in *; assumption.
Qed.

(** ** Reversal of yaw and tilt *)
Definition reverse_blade (b : blade) : blade :=
  mkBlade (b_r b) (b_chord b) (b_theta b) (b_af b) (b_Rhub b) (b_Rtip b) (b_B b) (b_rho b) (b_mu b) (b_precone b) (- b_tilt b) (- b_yaw b)
    (b_shearExp b) (b_hubHt b) (b_opts b) (b_iterRe b) (b_precurve b) (b_precurveTip b) (b_presweep b) (b_presweepTip b)
    (b_rotorR b) (b_nSector b) (b_inverse b) (b_cl b) (b_cd b) (b_alpha b) (b_pitch b).

Lemma reqb_opp x : reqb (- x) 0 = reqb x 0.
Proof. destruct (reqb x 0) eqn:E; [apply reqb_true in E; apply reqb_true; lra|]. apply reqb_false in E. apply reqb_false. lra. Qed.
Lemma construct_reversed g : construct (reversed g) = match construct g with Ok b => Ok (reverse_blade b) | Raise e => Raise e end.
Proof.
  unfold construct, reversed.
  cbn [g_r g_chord g_theta g_af g_Rhub g_Rtip g_B g_rho g_mu g_precone g_tilt g_yaw g_shearExp g_hubHt g_nSector g_precurve g_precurveTip g_presweep g_presweepTip g_opts g_iterRe].
  destruct (Nat.ltb (length (g_r g)) 2); [reflexivity|]. cbv zeta. destruct (curve_error _ _ _ _ _); [reflexivity|]. unfold reverse_blade.
  cbn [b_r b_chord b_theta b_af b_Rhub b_Rtip b_B b_rho b_mu b_precone b_tilt b_yaw b_shearExp b_hubHt b_opts b_iterRe b_precurve b_precurveTip b_presweep b_presweepTip b_rotorR b_nSector b_inverse b_cl b_cd b_alpha b_pitch].
  assert (N : forall x, radians (- x) = - radians x) by (intros x; unfold radians, Rdiv; ring).
  rewrite !N, !reqb_opp. reflexivity.
Qed.

Lemma wind_reversed b U Om az : b_shearExp b = 0 -> wind (reverse_blade b) U Om az = wind b U Om (az + PI).
Proof.
  intros H. unfold wind, windComponents. cbn [reverse_blade b_r b_precurve b_presweep b_precone b_yaw b_tilt b_hubHt b_shearExp]. rewrite H.
  destruct (defineCurvature _ _ _ _ _) as [[[[x y] z] cone] s]. rewrite !sin_neg, !cos_neg.
  replace (sin (az + PI)) with (- sin az) by (rewrite neg_sin; reflexivity). replace (cos (az + PI)) with (- cos az) by (rewrite neg_cos; reflexivity).
  assert (P : forall u, rpow u 0 = 1) by (intros u; unfold rpow; rewrite (proj2 (reqb_true 0 0) eq_refl); reflexivity).
  apply f_equal2; apply functional_extensionality; intros i; rewrite !P; ring.
Qed.
Lemma loads_reversed npi bq b U Om p az : b_shearExp b = 0 -> section_loads npi bq (reverse_blade b) U Om p az = section_loads npi bq b U Om p (az + 180).
Proof.
  intros H. unfold section_loads, distributedAeroLoads. change (shapes_ok (reverse_blade b)) with (shapes_ok b). destruct (negb (shapes_ok b)); [reflexivity|].
  cbv zeta. rewrite wind_reversed by exact H. replace (radians (az + 180)) with (radians az + PI) by (unfold radians; field).
  change (length (b_r (reverse_blade b))) with (length (b_r b)).
  change (station_i npi bq (reverse_blade b)) with (station_i npi bq b).
  destruct (mapM _ _); reflexivity.
Qed.
Lemma loads_period npi bq b U Om p az : section_loads npi bq b U Om p (az + 360) = section_loads npi bq b U Om p az.
Proof. unfold section_loads. rewrite dal_period. reflexivity. Qed.

Lemma total_add f m : forall n, total (m + n) f = total m f + total n (fun k => f (m + k)%nat).
Proof. induction n as [|n IH]; [rewrite Nat.add_0_r; cbn; ring|]. rewrite Nat.add_succ_r. cbn [total]. rewrite IH. ring. Qed.
Definition half_turn (h k : nat) : nat := if (k <? h)%nat then (k + h)%nat else (k - h)%nat.
Lemma total_half h f : total (h + h) (fun k => f (half_turn h k)) = total (h + h) f.
Proof.
  rewrite !total_add. rewrite Rplus_comm. f_equal; apply total_ext; intros k Hk; unfold half_turn.
  - rewrite (proj2 (Nat.ltb_ge (h + k) h)) by lia. f_equal. lia.
  - rewrite (proj2 (Nat.ltb_lt k h)) by lia. f_equal. lia.
Qed.
Lemma total_opp n f : total n (fun k => - f k) = - total n f.
Proof. induction n as [|n IH]; cbn; [ring|]. rewrite IH. ring. Qed.

Lemma mapM_total {X Y} (f : X -> res Y) l : (forall x, In x l -> exists y, f x = Ok y) -> exists ys, mapM f l = Ok ys.
Proof.
  induction l as [|x l IH]; intros H; [eexists; reflexivity|]. destruct (H x (or_introl eq_refl)) as [y E]. destruct IH as [ys E']; [intros; apply H; right; assumption|].
  exists (y :: ys). cbn [mapM]. rewrite E. cbn [bind]. rewrite E'. reflexivity.
Qed.

Definition good (ls : list (sload fl)) : Prop := exists Np Tp, fvals (map o_Np ls) = Some Np /\ fvals (map o_Tp ls) = Some Tp.
Lemma fold_good b azs lss : length lss = length azs -> (exists t, fold_left (step b) (combine azs lss) (Some tot0) = Some t) <-> (forall k, (k < length lss)%nat -> good (nth k lss [])).
Proof.
  intros HL. split.
  - intros [t E] k Hk. destruct (fold_some b _ _ _ E) as (_ & _ & F). rewrite Forall_forall in F.
    assert (IN : In (nth k azs 0, nth k lss []) (combine azs lss)).
    { apply (nth_error_In _ k). rewrite <- combine_nth by lia. apply nth_error_nth'. rewrite combine_length. lia. }
    exact (F _ IN).
  - intros H. apply fold_finite. rewrite Forall_forall. intros [az ls] IN. cbn [snd]. apply in_combine_r in IN.
    destruct (In_nth _ _ [] IN) as (k & Hk & <-). exact (H k Hk).
Qed.

Lemma az_deg k n : (0 < n)%nat -> degrees (INR k * (2 * PI / INR n)) = INR k * 360 / INR n.
Proof. intros _. apply degrees_az. Qed.

Lemma reversed_loads_at npi bq b U Om p h k : b_shearExp b = 0 -> (k < h + h)%nat ->
  section_loads npi bq (reverse_blade b) U Om p (INR k * 360 / INR (h + h)) = section_loads npi bq b U Om p (INR (half_turn h k) * 360 / INR (h + h)).
Proof.
  intros Hs Hk. rewrite loads_reversed by exact Hs. assert (HH : INR h <> 0) by (apply not_0_INR; lia). rewrite !plus_INR.
  unfold half_turn. destruct (k <? h)%nat eqn:E.
  - rewrite plus_INR. f_equal. field. lra.
  - apply Nat.ltb_ge in E. rewrite minus_INR by lia. rewrite <- (loads_period npi bq b U Om p ((INR k - INR h) * 360 / (INR h + INR h))). f_equal. field. lra.
Qed.

Lemma reversed_one npi bq b U Om p b' o w h : b_inverse b = false -> b_shearExp b = 0 -> b_nSector b = (h + h)%nat -> (1 <= h)%nat ->
  evaluate npi bq b [(U, Om, p)] = Ok (b', [o], w) ->
  exists b'' o' w', evaluate npi bq (reverse_blade b) [(U, Om, p)] = Ok (b'', [o'], w') /\ opposite_opt (b_rho b <> 0 /\ U <> 0 /\ b_rotorR b <> 0) o o'.
Proof.
  intros Hi Hs Hn Hh E. rewrite evaluate_forward in E |- * by (cbn; auto; lia). change (b_nSector (reverse_blade b)) with (b_nSector b).
  apply bind_ok in E. destruct E as (lss & EM & E). apply ok_inj in E. apply pair_equal_spec in E. destruct E as [E _]. apply pair_equal_spec in E. destruct E as [_ E].
  injection E as E.
  assert (HL : length lss = b_nSector b) by (rewrite <- (azimuths_length (b_nSector b)); symmetry; eapply Forall2_len; apply mapM_ok; exact EM).
  assert (HS : forall k, (k < b_nSector b)%nat -> section_loads npi bq b U Om p (INR k * 360 / INR (b_nSector b)) = Ok (nth k lss [])).
  { intros k Hk. pose proof (mapM_ok _ _ _ EM) as F2. assert (NE : nth_error lss k = Some (nth k lss [])) by (apply nth_error_nth'; lia).
    destruct (Forall2_nth_error _ _ _ _ _ F2 NE) as (a & Ea & Eq). unfold azimuths in Ea.
    rewrite nth_error_map in Ea. rewrite (nth_error_nth' (seq 0 (b_nSector b)) O) in Ea by (rewrite seq_length; exact Hk). rewrite seq_nth in Ea by exact Hk. cbn in Ea.
    injection Ea as <-. rewrite degrees_az in Eq. exact Eq. }
  assert (HT : forall k, (k < b_nSector b)%nat -> (half_turn h k < b_nSector b)%nat).
  { intros k Hk. rewrite Hn in *. unfold half_turn. destruct (k <? h)%nat eqn:Ek; [apply Nat.ltb_lt in Ek|apply Nat.ltb_ge in Ek]; lia. }
  assert (HR : forall k, (k < b_nSector b)%nat -> section_loads npi bq (reverse_blade b) U Om p (INR k * 360 / INR (b_nSector b)) = Ok (nth (half_turn h k) lss [])).
  { intros k Hk. rewrite <- HS by (apply HT; exact Hk). rewrite Hn. apply reversed_loads_at; [exact Hs|lia]. }
  destruct (mapM_total (fun az => section_loads npi bq (reverse_blade b) U Om p (degrees az)) (azimuths (b_nSector b))) as [lss' EM'].
  { intros az IN. unfold azimuths in IN. apply in_map_iff in IN. destruct IN as (k & <- & IN). apply in_seq in IN. rewrite degrees_az. eexists. apply HR. lia. }
  assert (HL' : length lss' = b_nSector b) by (rewrite <- (azimuths_length (b_nSector b)); symmetry; eapply Forall2_len; apply mapM_ok; exact EM').
  assert (HN : forall k, (k < b_nSector b)%nat -> nth k lss' [] = nth (half_turn h k) lss []).
  { intros k Hk. pose proof (mapM_ok _ _ _ EM') as F2. assert (NE : nth_error lss' k = Some (nth k lss' [])) by (apply nth_error_nth'; lia).
    destruct (Forall2_nth_error _ _ _ _ _ F2 NE) as (a & Ea & Eq). unfold azimuths in Ea.
    rewrite nth_error_map in Ea. rewrite (nth_error_nth' (seq 0 (b_nSector b)) O) in Ea by (rewrite seq_length; exact Hk). rewrite seq_nth in Ea by exact Hk. cbn in Ea.
    injection Ea as <-. rewrite degrees_az in Eq. rewrite HR in Eq by exact Hk. apply ok_inj in Eq. symmetry. exact Eq. }
  rewrite EM'. cbn [bind]. eexists _, _, _. split; [reflexivity|]. rewrite <- E.
  assert (HA : length lss = length (azimuths (b_nSector b))) by (rewrite azimuths_length; exact HL).
  assert (HA' : length lss' = length (azimuths (b_nSector b))) by (rewrite azimuths_length; exact HL').
  change (step (reverse_blade b)) with (step b).
  assert (INV : forall k, (k < b_nSector b)%nat -> half_turn h (half_turn h k) = k).
  { intros k Hk. rewrite Hn in Hk. unfold half_turn. destruct (k <? h)%nat eqn:Ek; [apply Nat.ltb_lt in Ek|apply Nat.ltb_ge in Ek].
    - rewrite (proj2 (Nat.ltb_ge (k + h) h)) by lia. lia.
    - rewrite (proj2 (Nat.ltb_lt (k - h) h)) by lia. lia. }
  destruct (fold_left (step b) (combine (azimuths (b_nSector b)) lss) (Some tot0)) as [t|] eqn:F1;
  destruct (fold_left (step b) (combine (azimuths (b_nSector b)) lss') (Some tot0)) as [t'|] eqn:F2; cbn [option_map opposite_opt].
  - pose proof (fold_sum b _ _ _ F1) as S1. pose proof (fold_sum b _ _ _ F2) as S2. cbv zeta in S1, S2. unfold azimuths in S1, S2.
    rewrite !isum_total in S1 by exact HL. rewrite !isum_total in S2 by exact HL'. cbn [tot0 t_T t_Y t_Z t_Q t_My t_Mz t_Mb] in S1, S2.
    assert (AZ : forall k, (k < b_nSector b)%nat -> cos (INR k * (2 * PI / INR (b_nSector b))) = - cos (INR (half_turn h k) * (2 * PI / INR (b_nSector b))) /\
                 sin (INR k * (2 * PI / INR (b_nSector b))) = - sin (INR (half_turn h k) * (2 * PI / INR (b_nSector b)))).
    { intros k Hk. rewrite <- neg_cos, <- neg_sin. rewrite Hn. assert (HH : INR h <> 0) by (apply not_0_INR; lia). rewrite plus_INR. unfold half_turn.
      destruct (k <? h)%nat eqn:Ek; [|apply Nat.ltb_ge in Ek].
      - rewrite plus_INR. replace ((INR k + INR h) * (2 * PI / (INR h + INR h)) + PI) with (INR k * (2 * PI / (INR h + INR h)) + 2 * PI) by (field; lra).
        split; [rewrite cos_plus, sin_2PI, cos_2PI|rewrite sin_plus, sin_2PI, cos_2PI]; ring.
      - rewrite minus_INR by lia. replace ((INR k - INR h) * (2 * PI / (INR h + INR h)) + PI) with (INR k * (2 * PI / (INR h + INR h))) by (field; lra). auto. }
    assert (SAME : forall f : nat -> R, forall f' : nat -> R, (forall k, (k < b_nSector b)%nat -> f' k = f (half_turn h k)) -> total (b_nSector b) f' = total (b_nSector b) f).
    { intros f f' H. rewrite (total_ext _ f' (fun k => f (half_turn h k)) H). rewrite Hn. apply total_half. }
    assert (OPP : forall f : nat -> R, forall f' : nat -> R, (forall k, (k < b_nSector b)%nat -> f' k = - f (half_turn h k)) -> total (b_nSector b) f' = - total (b_nSector b) f).
    { intros f f' H. rewrite (total_ext _ f' (fun k => - f (half_turn h k)) H). rewrite (total_opp _ (fun k => f (half_turn h k))). rewrite Hn. f_equal. apply total_half. }
    assert (TT : t_T t' = t_T t /\ t_Q t' = t_Q t /\ t_Mb t' = t_Mb t /\ t_Y t' = - t_Y t /\ t_Z t' = - t_Z t /\ t_My t' = - t_My t /\ t_Mz t' = - t_Mz t).
    { destruct S1 as (P1 & P2 & P3 & P4 & P5 & P6 & P7), S2 as (Q1 & Q2 & Q3 & Q4 & Q5 & Q6 & Q7).
      rewrite P1, P2, P3, P4, P5, P6, P7, Q1, Q2, Q3, Q4, Q5, Q6, Q7.
      repeat match goal with |- _ /\ _ => split end.
      1,2,3: f_equal; f_equal; apply SAME; intros k Hk; rewrite (HN k Hk); reflexivity.
      all: rewrite Ropp_plus_distr, Ropp_0, Ropp_mult_distr_r; f_equal; f_equal; apply OPP; intros k Hk; destruct (AZ k Hk) as [CA SA]; cbv beta; rewrite ?CA, ?SA, (HN k Hk); ring. }
    destruct TT as (T1 & T2 & T3 & T4 & T5 & T6 & T7). unfold opposite_out, opposite_coefficients, finish.
    cbn [y_tot y_P y_CP y_CT y_CY y_CZ y_CQ y_CMy y_CMz y_CMb reverse_blade b_rho b_rotorR]. rewrite T1, T2, T3, T4, T5, T6, T7.
    split; [repeat split|]. intros _. unfold Rdiv. repeat split; ring.
  - exfalso. assert (G : exists t, fold_left (step b) (combine (azimuths (b_nSector b)) lss') (Some tot0) = Some t).
    { apply fold_good; [exact HA'|]. intros k Hk. rewrite HL' in Hk. rewrite (HN k Hk).
      apply (proj1 (fold_good b _ lss HA) (ex_intro _ t F1)). rewrite HL. apply HT. exact Hk. }
    destruct G as [t' G]. rewrite G in F2. discriminate.
  - exfalso. assert (G : exists t, fold_left (step b) (combine (azimuths (b_nSector b)) lss) (Some tot0) = Some t).
    { apply fold_good; [exact HA|]. intros k Hk. rewrite HL in Hk. rewrite <- (INV k Hk). rewrite <- (HN _ (HT k Hk)).
      apply (proj1 (fold_good b _ lss' HA') (ex_intro _ t' F2)). rewrite HL'. apply HT. exact Hk. }
    destruct G as [t G]. rewrite G in F1. discriminate.
  - exact I.
Qed.

Lemma reversed_evaluate npi bq b conds b' outs w : b_inverse b = false -> b_shearExp b = 0 -> Nat.Even (b_nSector b) -> (1 <= b_nSector b)%nat ->
  evaluate npi bq b conds = Ok (b', outs, w) ->
  exists b'' outs' w', evaluate npi bq (reverse_blade b) conds = Ok (b'', outs', w') /\ length outs' = length outs /\
    forall i U Om p o o', nth_error conds i = Some (U, Om, p) -> nth_error outs i = Some o -> nth_error outs' i = Some o' ->
      opposite_opt (b_rho b <> 0 /\ U <> 0 /\ b_rotorR b <> 0) o o'.
Proof.
  intros Hi Hs [h Hh] Hn E. assert (Hh' : b_nSector b = (h + h)%nat) by lia.
  destruct conds as [|c0 conds0] eqn:EC; [unfold evaluate in E; cbn in E; discriminate|]. rewrite <- EC in *. assert (Hc : conds <> []) by (rewrite EC; discriminate). clear EC.
  pose proof (evaluate_pointwise npi bq b conds Hi Hn Hc) as P. rewrite E in P.
  pose proof (evaluate_pointwise npi bq (reverse_blade b) conds Hi Hn Hc) as Q.
  destruct (evaluate npi bq (reverse_blade b) conds) as [[[b'' outs'] w']|e].
  - exists b'', outs', w'. split; [reflexivity|]. split; [rewrite <- (Forall2_len _ _ _ P); symmetry; apply (Forall2_len _ _ _ Q)|].
    intros i U Om p o o' Ec Eo Eo'.
    destruct (Forall2_nth_error _ _ _ _ _ P Eo) as (c & Ec1 & b1 & w1 & E1). rewrite Ec in Ec1. injection Ec1 as <-.
    destruct (Forall2_nth_error _ _ _ _ _ Q Eo') as (c & Ec2 & b2 & w2 & E2). rewrite Ec in Ec2. injection Ec2 as <-.
    destruct (reversed_one npi bq b U Om p b1 o w1 h Hi Hs Hh' ltac:(lia) E1) as (b3 & o3 & w3 & E3 & R). rewrite E2 in E3. apply ok_inj in E3.
    apply pair_equal_spec in E3. destruct E3 as [E3 _]. apply pair_equal_spec in E3. destruct E3 as [_ E3]. injection E3 as ->. exact R.
  - exfalso. destruct Q as (((U & Om) & p) & IN & ER). destruct (In_nth_error _ _ IN) as [i Ec].
    assert (HL : length outs = length conds) by (symmetry; apply (Forall2_len _ _ _ P)).
    destruct (nth_error outs i) as [o|] eqn:Eo; [|apply nth_error_None in Eo; assert (nth_error conds i <> None) by (rewrite Ec; discriminate); rewrite nth_error_Some in *; lia].
    destruct (Forall2_nth_error _ _ _ _ _ P Eo) as (c & Ec1 & b1 & w1 & E1). rewrite Ec in Ec1. injection Ec1 as <-.
    destruct (reversed_one npi bq b U Om p b1 o w1 h Hi Hs Hh' ltac:(lia) E1) as (b3 & o3 & w3 & E3 & _). rewrite ER in E3. discriminate.
Qed.

(** ** Attributes of a new object *)
Lemma construct_attributes g b : construct g = Ok b ->
  b_af b = g_af g /\ b_rho b = g_rho g /\ b_shearExp b = g_shearExp g /\ (1 <= b_nSector b)%nat /\ b_inverse b = false /\ (forall t, In t (b_theta b) -> exists v, t = Fin v).
Proof.
  unfold construct. intros H. destruct (Nat.ltb (length (g_r g)) 2); [discriminate|]. cbv zeta in H. destruct (curve_error _ _ _ _ _); [discriminate|]. apply ok_inj in H. subst b.
  cbn [b_af b_rho b_shearExp b_nSector b_inverse b_theta]. do 3 (split; [reflexivity|]). split; [destruct (andb _ _); lia|]. split; [reflexivity|].
  intros t IN. apply in_map_iff in IN. destruct IN as (x & <- & _). eauto.
Qed.
Lemma construct_af g b : construct g = Ok b -> b_af b = g_af g. Proof. intros H. apply (construct_attributes g b H). Qed.
Lemma construct_rho g b : construct g = Ok b -> b_rho b = g_rho g. Proof. intros H. apply (construct_attributes g b H). Qed.
Lemma construct_shear g b : construct g = Ok b -> b_shearExp b = g_shearExp g. Proof. intros H. apply (construct_attributes g b H). Qed.
Lemma construct_sectors g b : construct g = Ok b -> (1 <= b_nSector b)%nat. Proof. intros H. apply (construct_attributes g b H). Qed.
Lemma construct_forward g b : construct g = Ok b -> b_inverse b = false /\ (forall t, In t (b_theta b) -> exists v, t = Fin v).
Proof. intros H. split; apply (construct_attributes g b H). Qed.
