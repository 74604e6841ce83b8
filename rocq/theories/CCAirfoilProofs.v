(** Lemmas about the airfoil class model. *)
From Coq Require Import Reals List Bool Lra Lia.
From Verif Require Import Prelim Num FlProofs Interp Polar PolarExt AeroDyn UnsteadyProofs StationProofs CCAirfoil CCAirfoilSpec.
Import ListNotations.
Open Scope R_scope.

(** * Searches *)
Lemma argmin_from_first l : forall pre best v, (best < length pre)%nat -> nth best pre 0 = v ->
  (forall j, (j < length pre)%nat -> v <= nth j pre 0) -> (forall j, (j < best)%nat -> v < nth j pre 0) ->
  let i := argmin_from l (length pre) best v in
  (i < length (pre ++ l))%nat /\ (forall j, (j < length (pre ++ l))%nat -> nth i (pre ++ l) 0 <= nth j (pre ++ l) 0) /\
  (forall j, (j < i)%nat -> nth i (pre ++ l) 0 < nth j (pre ++ l) 0).
Proof.
  induction l as [|x l IH]; intros pre best v Hb Hv F S; cbn [argmin_from].
  - rewrite app_nil_r. rewrite Hv. auto.
  - replace (pre ++ x :: l) with ((pre ++ [x]) ++ l) by (rewrite <- app_assoc; reflexivity).
    replace (Datatypes.S (length pre)) with (length (pre ++ [x])) by (rewrite app_length; cbn; lia).
    assert (Hx : nth (length pre) (pre ++ [x]) 0 = x) by (rewrite app_nth2, Nat.sub_diag by lia; reflexivity).
    destruct (rltb x v) eqn:E.
    + apply rltb_true in E. apply IH.
      * rewrite app_length. cbn. lia.
      * exact Hx.
      * intros j Hj. rewrite app_length in Hj; cbn in Hj.
        destruct (Nat.eq_dec j (length pre)) as [->|N]; [rewrite Hx; lra|].
        rewrite app_nth1 by lia. specialize (F j ltac:(lia)). lra.
      * intros j Hj. rewrite app_nth1 by lia. specialize (F j Hj). lra.
    + apply rltb_false in E. apply IH.
      * rewrite app_length. cbn. lia.
      * rewrite app_nth1 by exact Hb. exact Hv.
      * intros j Hj. rewrite app_length in Hj; cbn in Hj.
        destruct (Nat.eq_dec j (length pre)) as [->|N]; [rewrite Hx; lra|].
        rewrite app_nth1 by lia. apply F. lia.
      * intros j Hj. rewrite app_nth1 by lia. apply S, Hj.
Qed.
Lemma argmin_first l i : argmin l = Ok i ->
  (i < length l)%nat /\ (forall j, (j < length l)%nat -> nth i l 0 <= nth j l 0) /\ (forall j, (j < i)%nat -> nth i l 0 < nth j l 0).
Proof.
  destruct l as [|x l]; [discriminate|]. cbn [argmin]. intros E.
  assert (E2 : argmin_from l 1 0 x = i) by (apply (f_equal (fun r => match r with Ok a => a | Raise _ => 0%nat end)) in E; exact E).
  rewrite <- E2. apply (argmin_from_first l [x] 0 x); [cbn; lia|reflexivity| |intros; lia].
  intros j Hj. cbn in Hj. destruct j; [cbn; lra|lia].
Qed.
Lemma nth_map_abs l x j : (j < length l)%nat -> nth j (map (fun a => Rabs (a - x)) l) 0 = Rabs (nth j l 0 - x).
Proof. intros H. rewrite (nth_indep _ 0 (Rabs (0 - x))) by (rewrite map_length; exact H). apply (map_nth (fun a => Rabs (a - x))). Qed.
Lemma nearest_closest l x i : nearest_to l x = Ok i -> closest l x i.
Proof.
  unfold nearest_to. intros E. apply argmin_first in E. rewrite map_length in E. destruct E as (Hi & F & S).
  split; [exact Hi|split].
  - intros j Hj. specialize (F j Hj). rewrite !nth_map_abs in F by assumption. exact F.
  - intros j Hj. specialize (S j Hj). rewrite !nth_map_abs in S by lia. exact S.
Qed.
Lemma closest_unique l x i j : closest l x i -> closest l x j -> i = j.
Proof.
  intros (Hi & Fi & Si) (Hj & Fj & Sj). destruct (Nat.lt_trichotomy i j) as [H|[H|H]]; [exfalso|exact H|exfalso].
  - specialize (Sj i H). specialize (Fi j Hj). lra.
  - specialize (Si j H). specialize (Fj i Hi). lra.
Qed.
Lemma nearest_ok l x : l <> [] -> exists i, nearest_to l x = Ok i /\ closest l x i.
Proof.
  intros H. destruct (argmin_spec (map (fun a => Rabs (a - x)) l)) as (i & E & _).
  - destruct l; [congruence|discriminate].
  - exists i. split; [exact E|]. apply nearest_closest, E.
Qed.
Lemma nearest_of l x i : closest l x i -> nearest_to l x = Ok i.
Proof.
  intros C. destruct (nearest_ok l x) as (k & E & D). { intros ->. destruct C as (H & _). cbn in H. lia. }
  rewrite E. f_equal. eapply closest_unique; eassumption.
Qed.

Lemma slice_length l lo hi : (hi <= length l)%nat -> length (slice l lo hi) = (hi - lo)%nat.
Proof. intros H. unfold slice. rewrite skipn_length, firstn_length. lia. Qed.
Lemma nth_slice l lo hi j : (lo + j < hi)%nat -> nth j (slice l lo hi) 0 = nth (lo + j) l 0.
Proof.
  intros H. unfold slice.
  assert (G : forall (l : list R) n j, nth j (skipn n l) 0 = nth (n + j) l 0).
  { clear. intros l. induction l as [|x l IH]; intros [|n] j; cbn; auto; destruct j; auto. }
  rewrite G. assert (K : forall (l : list R) n i, (i < n)%nat -> nth i (firstn n l) 0 = nth i l 0).
  { clear. intros l. induction l as [|x l IH]; intros [|n] [|i] Hi; cbn; auto; try lia. apply IH. lia. }
  apply K, H.
Qed.

(** * Cylinder test *)
Lemma rad_scan d : radians d = d * PI / 180.
Proof. unfold radians. field. Qed.
Lemma cylinder_iff alpha : alpha <> [] -> exists b, cylinder alpha = Ok b /\ (b = true <-> counts_as_cylinder alpha).
Proof.
  intros H. unfold cylinder.
  destruct (nearest_ok alpha (radians (-20)) H) as (i & Ei & Ci). destruct (nearest_ok alpha (radians 40) H) as (j & Ej & Cj).
  rewrite Ei, Ej. cbn [bind]. rewrite slice_length by (destruct Cj; lia).
  eexists. split; [reflexivity|]. rewrite Nat.eqb_eq. rewrite rad_scan in Ci, Cj. split.
  - intros E. exists i, j. repeat split; try apply Ci; try apply Cj. lia.
  - intros (i' & j' & Ci' & Cj' & L). rewrite (closest_unique _ _ _ _ Ci Ci'), (closest_unique _ _ _ _ Cj Cj'). lia.
Qed.

(** * The scan *)
Lemma scan_length : length scan = 201%nat.
Proof. unfold scan, linspace. rewrite !map_length, seq_length. reflexivity. Qed.
Lemma nth_scan k : (k <= 200)%nat -> nth k scan 0 = scan_angle k.
Proof.
  intros H. unfold scan. rewrite (nth_indep _ 0 (radians 0)) by (rewrite map_length; unfold linspace; rewrite map_length, seq_length; lia).
  rewrite map_nth. unfold linspace.
  set (g := fun k0 : nat => -20 + INR k0 * ((40 - -20) / INR (201 - 1))).
  rewrite (nth_indep _ 0 (g 0%nat)) by (rewrite map_length, seq_length; lia). rewrite map_nth, seq_nth by lia.
  unfold g, scan_angle, radians. cbn [Nat.add]. replace (INR (201 - 1)) with 200 by (cbn; lra). field.
Qed.

Lemma rep_not_nan a x : rep a x -> fisnan a = false.
Proof. intros H. apply rep_inv in H. destruct H as [->|[-> _]]; reflexivity. Qed.
Lemma argmax_fl_from_first l : forall ls pre best v a, Forall2 rep l ls -> rep a v -> (best < length pre)%nat -> nth best pre 0 = v ->
  (forall j, (j < length pre)%nat -> nth j pre 0 <= v) -> (forall j, (j < best)%nat -> nth j pre 0 < v) ->
  let i := argmax_fl_from l (length pre) best a in
  (i < length (pre ++ ls))%nat /\ (forall j, (j < length (pre ++ ls))%nat -> nth j (pre ++ ls) 0 <= nth i (pre ++ ls) 0) /\
  (forall j, (j < i)%nat -> nth j (pre ++ ls) 0 < nth i (pre ++ ls) 0).
Proof.
  induction l as [|x l IH]; intros ls pre best v a RL Ra Hb Hv F S; inversion RL as [|x' r l' rs Rx RL']; subst; cbn [argmax_fl_from].
  - rewrite app_nil_r. auto.
  - replace (pre ++ r :: rs) with ((pre ++ [r]) ++ rs) by (rewrite <- app_assoc; reflexivity).
    replace (Datatypes.S (length pre)) with (length (pre ++ [r])) by (rewrite app_length; cbn; lia).
    assert (Hx : nth (length pre) (pre ++ [r]) 0 = r) by (rewrite app_nth2, Nat.sub_diag by lia; reflexivity).
    rewrite (rep_not_nan _ _ Ra), (rep_le _ _ _ _ Rx Ra).
    destruct (rleb r (nth best pre 0)) eqn:E; cbn [negb].
    + apply rleb_true in E. apply (IH rs (pre ++ [r]) best (nth best pre 0) a RL' Ra).
      * rewrite app_length. cbn. lia.
      * rewrite app_nth1 by exact Hb. reflexivity.
      * intros j Hj. rewrite app_length in Hj; cbn in Hj.
        destruct (Nat.eq_dec j (length pre)) as [->|N]; [rewrite Hx; lra|].
        rewrite app_nth1 by lia. apply F. lia.
      * intros j Hj. rewrite app_nth1 by lia. apply S, Hj.
    + apply rleb_false in E. apply (IH rs (pre ++ [r]) (length pre) r x RL' Rx).
      * rewrite app_length. cbn. lia.
      * exact Hx.
      * intros j Hj. rewrite app_length in Hj; cbn in Hj.
        destruct (Nat.eq_dec j (length pre)) as [->|N]; [rewrite Hx; lra|].
        rewrite app_nth1 by lia. specialize (F j ltac:(lia)). lra.
      * intros j Hj. rewrite app_nth1 by lia. specialize (F j Hj). lra.
Qed.
Lemma argmax_fl_first l ls : l <> [] -> Forall2 rep l ls -> exists i, argmax_fl l = Ok i /\
  (i < length ls)%nat /\ (forall j, (j < length ls)%nat -> nth j ls 0 <= nth i ls 0) /\ (forall j, (j < i)%nat -> nth j ls 0 < nth i ls 0).
Proof.
  destruct l as [|x l]; [congruence|]. intros _ RL. inversion RL as [|x' r l' rs Rx RL']; subst. cbn [argmax_fl].
  eexists. split; [reflexivity|].
  apply (argmax_fl_from_first l rs [r] 0 r x RL' Rx); [cbn; lia|reflexivity| |intros; lia].
  intros j Hj. cbn in Hj. destruct j; [cbn; lra|lia].
Qed.

Lemma argmax_from_nan l i best : argmax_fl_from l i best NaN = best.
Proof. destruct l; reflexivity. Qed.
Lemma argmax_fl_nan l : forall k i best v, fisnan v = false -> nth_error l k = Some NaN -> (forall j, (j < k)%nat -> nth_error l j <> Some NaN) ->
  argmax_fl_from l i best v = (i + k)%nat.
Proof.
  induction l as [|x l IH]; intros [|k] i best v Hv E F; try discriminate; cbn [argmax_fl_from]; rewrite Hv.
  - apply (f_equal (fun o => match o with Some a => a | None => Fin 0 end)) in E. cbn in E. rewrite E.
    replace (fle NaN v) with false by (destruct v; reflexivity). cbn [negb]. rewrite argmax_from_nan. lia.
  - assert (Hx : fisnan x = false) by (specialize (F 0%nat ltac:(lia)); cbn in F; destruct x; try reflexivity; congruence).
    cbn in E. assert (F' : forall j, (j < k)%nat -> nth_error l j <> Some NaN) by (intros j Hj; apply (F (S j)); lia).
    destruct (negb (fle x v)); rewrite (IH k) by assumption; lia.
Qed.
Lemma argmax_nan l k : nth_error l k = Some NaN -> (forall j, (j < k)%nat -> nth_error l j <> Some NaN) -> argmax_fl l = Ok k.
Proof.
  destruct l as [|x l]; [destruct k; discriminate|]. intros E F. cbn [argmax_fl]. destruct k as [|k].
  - cbn in E. apply (f_equal (fun o => match o with Some a => a | None => Fin 0 end)) in E. cbn in E. rewrite E, argmax_from_nan. reflexivity.
  - f_equal. assert (Hx : fisnan x = false) by (specialize (F 0%nat ltac:(lia)); cbn in F; destruct x; try reflexivity; congruence).
    rewrite (argmax_fl_nan l k 1 0%nat x Hx E); [lia|]. intros j Hj. apply (F (S j)); lia.
Qed.

(** * max_eff *)
Lemma map2_map (f : R -> R -> fl) (g h : R -> R) l : map2 f (map g l) (map h l) = map (fun a => f (g a) (h a)) l.
Proof. unfold map2. induction l as [|x l IH]; cbn; [reflexivity|]. rewrite <- IH. reflexivity. Qed.
Lemma nth_map_scan {B} (f : R -> B) d k : (k <= 200)%nat -> nth k (map f scan) d = f (scan_angle k).
Proof.
  intros H. rewrite (nth_indep _ d (f 0)) by (rewrite map_length, scan_length; lia). rewrite map_nth, nth_scan by exact H. reflexivity.
Qed.
Lemma in_scan a : In a scan -> exists k, (k <= 200)%nat /\ a = scan_angle k.
Proof.
  intros H. apply (In_nth _ _ 0) in H. destruct H as (k & Hk & E). rewrite scan_length in Hk. exists k. split; [lia|].
  rewrite <- E. apply nth_scan. lia.
Qed.
Lemma scan_argmax (f : R -> fl) (g : R -> R) : (forall k, (k <= 200)%nat -> rep (f (scan_angle k)) (g (scan_angle k))) ->
  exists i, argmax_fl (map f scan) = Ok i /\ first_largest (fun k => g (scan_angle k)) 200 i.
Proof.
  intros H. destruct (argmax_fl_first (map f scan) (map g scan)) as (i & E & Hi & F & S).
  - intros E. apply (f_equal (@length fl)) in E. rewrite map_length, scan_length in E. discriminate.
  - assert (G : forall l, (forall a, In a l -> rep (f a) (g a)) -> Forall2 rep (map f l) (map g l)).
    { clear. induction l as [|a l IH]; intros H; cbn; constructor; [apply H; left; reflexivity|]. apply IH. intros; apply H; right; assumption. }
    apply G. intros a Ha. apply in_scan in Ha. destruct Ha as (k & Hk & ->). apply H, Hk.
  - rewrite map_length, scan_length in Hi, F. exists i. split; [exact E|]. split; [lia|split].
    + intros j Hj. specialize (F j ltac:(lia)). rewrite !nth_map_scan in F by lia. exact F.
    + intros j Hj. specialize (S j Hj). rewrite !nth_map_scan in S by lia. exact S.
Qed.

Section MaxEff.
Variables (af : ccairfoil) (Re : R).
Let cl a := sp_ev (cc_cl af) a Re.
Let cd a := sp_ev (cc_cd af) a Re.
Hypothesis Hne : cc_alpha af <> [].

Lemma max_eff_scan : ~ counts_as_cylinder (cc_alpha af) -> (forall k, (k <= 200)%nat -> cd (scan_angle k) <> 0) ->
  exists k E, first_largest (fun j => cl (scan_angle j) / cd (scan_angle j)) 200 k /\
    max_eff af Re = Ok (E, scan_angle k, cl (scan_angle k), cd (scan_angle k)) /\ rep E (cl (scan_angle k) / cd (scan_angle k)).
Proof.
  intros NC Hcd. unfold max_eff. destruct (cylinder_iff _ Hne) as (b & Eb & Hb). rewrite Eb. cbn [bind].
  destruct b; [exfalso; apply NC, Hb; reflexivity|]. rewrite map2_map.
  destruct (scan_argmax (fun a => fdiv (Fin (cl a)) (Fin (cd a))) (fun a => cl a / cd a)) as (i & E & FL).
  { intros k Hk. apply rep_div; try apply rep_Fin. apply Hcd, Hk. }
  fold (cl) (cd). unfold cl, cd in E. rewrite E. cbn [bind].
  exists i. eexists. split; [exact FL|].
  destruct FL as (Hi & _). rewrite !nth_map_scan, nth_scan by exact Hi. split; [reflexivity|].
  apply rep_div; try apply rep_Fin. apply Hcd, Hi.
Qed.
Lemma max_eff_nan k : ~ counts_as_cylinder (cc_alpha af) -> (k <= 200)%nat -> cl (scan_angle k) = 0 -> cd (scan_angle k) = 0 ->
  (forall j, (j < k)%nat -> cd (scan_angle j) <> 0) -> max_eff af Re = Ok (NaN, scan_angle k, 0, 0).
Proof.
  intros NC Hk Hl Hd Hj. unfold max_eff. destruct (cylinder_iff _ Hne) as (b & Eb & Hb). rewrite Eb. cbn [bind].
  destruct b; [exfalso; apply NC, Hb; reflexivity|]. rewrite map2_map.
  assert (G : forall j, (j <= 200)%nat -> nth_error (map (fun a => fdiv (Fin (sp_ev (cc_cl af) a Re)) (Fin (sp_ev (cc_cd af) a Re))) scan) j =
     Some (fdiv (Fin (cl (scan_angle j))) (Fin (cd (scan_angle j))))).
  { intros j Hjl. rewrite (nth_error_nth' _ NaN) by (rewrite map_length, scan_length; lia).
    rewrite nth_map_scan by exact Hjl. reflexivity. }
  assert (Z : fdiv (Fin (cl (scan_angle k))) (Fin (cd (scan_angle k))) = NaN).
  { rewrite Hl, Hd. cbn. replace (reqb 0 0) with true by (symmetry; apply reqb_true; reflexivity). reflexivity. }
  rewrite (argmax_nan _ k).
  - cbn [bind]. rewrite !nth_map_scan, nth_scan by exact Hk. fold (cl (scan_angle k)) (cd (scan_angle k)). rewrite Z, Hl, Hd. reflexivity.
  - rewrite G by exact Hk. rewrite Z. reflexivity.
  - intros j Lj. rewrite G by lia. intros E. specialize (Hj j Lj).
    assert (R1 := rep_div (Fin (cl (scan_angle j))) (Fin (cd (scan_angle j))) _ _ (rep_Fin _) (rep_Fin _) Hj).
    apply (f_equal (fun o => match o with Some a => a | None => Fin 0 end)) in E. rewrite E in R1. discriminate.
Qed.
Lemma max_eff_cylinder : counts_as_cylinder (cc_alpha af) -> cd 0 <> 0 ->
  exists E, max_eff af Re = Ok (E, 0, cl 0, cd 0) /\ rep E (cl 0 / cd 0).
Proof.
  intros C H. unfold max_eff. destruct (cylinder_iff _ Hne) as (b & Eb & Hb). rewrite Eb. cbn [bind].
  destruct b; [|apply Hb in C; discriminate]. eexists. split; [reflexivity|]. apply rep_div; try apply rep_Fin. exact H.
Qed.
Lemma stall_scan margin : ~ counts_as_cylinder (cc_alpha af) ->
  exists k, first_largest (fun j => cl (scan_angle j)) 200 k /\
    let a := scan_angle k - margin * PI / 180 in
    exists E, awayfromstall af Re margin = Ok (E, a, cl a, cd a) /\ (cd a <> 0 -> rep E (cl a / cd a)).
Proof.
  intros NC. unfold awayfromstall. destruct (cylinder_iff _ Hne) as (b & Eb & Hb). rewrite Eb. cbn [bind].
  destruct b; [exfalso; apply NC, Hb; reflexivity|].
  destruct (scan_argmax (fun a => Fin (cl a)) cl) as (i & E & FL). { intros; apply rep_Fin. }
  unfold cl in E. rewrite E. cbn [bind]. exists i. split; [exact FL|]. destruct FL as (Hi & _). rewrite nth_scan by exact Hi.
  rewrite rad_scan. cbv zeta. eexists. split; [reflexivity|]. intros H. apply rep_div; try apply rep_Fin. exact H.
Qed.
Lemma stall_cylinder margin : counts_as_cylinder (cc_alpha af) ->
  exists E, awayfromstall af Re margin = Ok (E, 0, cl 0, cd 0) /\ (cd 0 <> 0 -> rep E (cl 0 / cd 0)).
Proof.
  intros C. unfold awayfromstall. destruct (cylinder_iff _ Hne) as (b & Eb & Hb). rewrite Eb. cbn [bind].
  destruct b; [|apply Hb in C; discriminate]. cbn [bind]. eexists. split; [reflexivity|]. intros H. apply rep_div; try apply rep_Fin. exact H.
Qed.
End MaxEff.

(** * Construction *)
Lemma cc_init_few rbs alpha Re cl cd cm : (length alpha < 2)%nat -> cc_init rbs alpha Re cl cd cm = Raise ValueError.
Proof. intros H. unfold cc_init. rewrite map_length. replace (Nat.ltb (length alpha) 2) with true by (symmetry; apply Nat.ltb_lt; exact H). reflexivity. Qed.

Lemma cc_init_inv rbs alpha Re cl cd cm af : cc_init rbs alpha Re cl cd cm = Ok af ->
  (2 <= length alpha)%nat /\ cc_alpha af = map radians alpha /\ cc_one_Re af = Nat.ltb (length Re) 2 /\
  (exists kx ky s, rbs (map radians alpha) (if Nat.ltb (length Re) 2 then [10; 1000000000000000] else Re)
     (if Nat.ltb (length Re) 2 then twice cl else cl) kx ky s = Ok (cc_cl af)) /\
  (exists kx ky s, rbs (map radians alpha) (if Nat.ltb (length Re) 2 then [10; 1000000000000000] else Re)
     (if Nat.ltb (length Re) 2 then twice cd else cd) kx ky s = Ok (cc_cd af)).
Proof.
  unfold cc_init. rewrite map_length. destruct (Nat.ltb (length alpha) 2) eqn:L; [discriminate|]. apply Nat.ltb_ge in L. intros E.
  apply bind_ok in E. destruct E as (scl & Ecl & E). apply bind_ok in E. destruct E as (scd & Ecd & E).
  destruct (Nat.ltb 0 (m_rows cm)).
  - apply bind_ok in E. destruct E as (scm & _ & E). apply ok_inj in E. subst af. cbn [cc_alpha cc_one_Re cc_cl cc_cd].
    split; [exact L|]. split; [reflexivity|]. split; [reflexivity|]. split; do 3 eexists; eassumption.
  - apply ok_inj in E. subst af. cbn [cc_alpha cc_one_Re cc_cl cc_cd].
    split; [exact L|]. split; [reflexivity|]. split; [reflexivity|]. split; do 3 eexists; eassumption.
Qed.

(** * Windows and breakpoints *)
Lemma amax_spec l m : amax l = Ok m -> In m l /\ forall x, In x l -> x <= m.
Proof.
  destruct l as [|x l]; [discriminate|]. cbn [amax]. intros E. apply ok_inj in E. subst m. revert x.
  induction l as [|y l IH]; intros x; cbn [fold_left].
  - split; [left; reflexivity|]. intros z [<-|[]]. lra.
  - destruct (IH (Rmax x y)) as (I & F). split.
    + destruct I as [I|I]; [|right; right; exact I]. rewrite <- I. unfold Rmax. destruct (Rle_dec x y); [right; left|left]; reflexivity.
    + intros z [<-|[<-|Hz]].
      * apply Rle_trans with (Rmax x y); [apply Rmax_l|apply F; left; reflexivity].
      * apply Rle_trans with (Rmax x y); [apply Rmax_r|apply F; left; reflexivity].
      * apply F. right. exact Hz.
Qed.
Lemma amax_ok l : l <> [] -> exists m, amax l = Ok m.
Proof. destruct l; [congruence|]. intros _. eexists. reflexivity. Qed.

Lemma varies_spec tol f : (2 <= length f)%nat -> exists b, varies tol f = Ok b /\ (b = true <-> changes tol f).
Proof.
  intros H. unfold varies, gradient1. replace (Nat.ltb (length f) 2) with false by (symmetry; apply Nat.ltb_ge; exact H). cbn [bind].
  set (g := fun i => if Nat.eqb i 0 then nth 1 f 0 - nth 0 f 0 else if Nat.eqb i (length f - 1) then nth i f 0 - nth (i - 1) f 0
         else (nth (i + 1) f 0 - nth (i - 1) f 0) / 2).
  destruct (amax_ok (map Rabs (map g (seq 0 (length f))))) as (m & Em).
  { intros E. apply (f_equal (@length R)) in E. rewrite !map_length, seq_length in E. cbn in E. lia. }
  rewrite Em. cbn [bind]. eexists. split; [reflexivity|]. apply amax_spec in Em. destruct Em as (I & F). rewrite rltb_true.
  assert (G : forall i, (i < length f)%nat -> Rabs (g i) <= m).
  { intros i Hi. apply F. rewrite map_map. apply (in_map (fun i => Rabs (g i))). apply in_seq. lia. }
  split.
  - intros L. rewrite map_map in I. apply in_map_iff in I. destruct I as (i & <- & Hi). apply in_seq in Hi. unfold g in L.
    destruct (Nat.eqb i 0) eqn:E0; [left; exact L|]. apply Nat.eqb_neq in E0.
    destruct (Nat.eqb i (length f - 1)) eqn:E1.
    + right. left. apply Nat.eqb_eq in E1. rewrite E1 in L. replace (length f - 1 - 1)%nat with (length f - 2)%nat in L by lia. exact L.
    + apply Nat.eqb_neq in E1. right. right. exists (i - 1)%nat. split; [lia|].
      replace (i - 1 + 2)%nat with (i + 1)%nat by lia.
      unfold Rdiv in *. rewrite Rabs_mult, (Rabs_pos_eq (/ 2)) in L by lra. exact L.
  - intros [L|[L|(i & Hi & L)]].
    + specialize (G 0%nat ltac:(lia)). unfold g in G. cbn [Nat.eqb] in G. lra.
    + specialize (G (length f - 1)%nat ltac:(lia)). unfold g in G.
      replace (Nat.eqb (length f - 1) 0) with false in G by (symmetry; apply Nat.eqb_neq; lia).
      rewrite Nat.eqb_refl in G. replace (length f - 1 - 1)%nat with (length f - 2)%nat in G by lia. lra.
    + specialize (G (i + 1)%nat ltac:(lia)). unfold g in G.
      replace (Nat.eqb (i + 1) 0) with false in G by (symmetry; apply Nat.eqb_neq; lia).
      replace (Nat.eqb (i + 1) (length f - 1)) with false in G by (symmetry; apply Nat.eqb_neq; lia).
      replace (i + 1 + 1)%nat with (i + 2)%nat in G by lia. replace (i + 1 - 1)%nat with i in G by lia.
      unfold Rdiv in *. rewrite Rabs_mult, (Rabs_pos_eq (/ 2)) in G by lra. lra.
Qed.
Lemma changes_constant f : (2 <= length f)%nat -> (changes 0 f <-> ~ constant f).
Proof.
  intros H. split.
  - intros C K. destruct C as [C|[C|(i & Hi & C)]].
    + rewrite (K 1%nat 0%nat), Rminus_diag_eq, Rabs_R0 in C by (lia || reflexivity). lra.
    + rewrite (K (length f - 1)%nat (length f - 2)%nat), Rminus_diag_eq, Rabs_R0 in C by (lia || reflexivity). lra.
    + rewrite (K (i + 2)%nat i), Rminus_diag_eq, Rabs_R0 in C by (lia || reflexivity). lra.
  - intros NK. destruct (Req_dec (nth 1 f 0) (nth 0 f 0)) as [E1|N1].
    2:{ left. apply Rabs_pos_lt. lra. }
    destruct (Classical_Prop.classic (exists i, (i + 2 < length f)%nat /\ nth (i + 2) f 0 <> nth i f 0)) as [(i & Hi & N)|A].
    { right. right. exists i. split; [exact Hi|]. assert (0 < Rabs (nth (i + 2) f 0 - nth i f 0)) by (apply Rabs_pos_lt; lra). lra. }
    exfalso. apply NK. assert (Z : forall n i, (i <= n)%nat -> (i < length f)%nat -> nth i f 0 = nth 0 f 0).
    { induction n as [|n IH]; intros i Hi Hl; [replace i with 0%nat by lia; reflexivity|].
      destruct (Nat.eq_dec i (S n)) as [->|]; [|apply IH; lia]. destruct n as [|n]; [exact E1|].
      rewrite <- (IH n) by lia. destruct (Req_dec (nth (S (S n)) f 0) (nth n f 0)) as [E|N]; [exact E|].
      exfalso. apply A. exists n. replace (n + 2)%nat with (S (S n)) by lia. split; [exact Hl|exact N]. }
    intros i j Hi Hj. rewrite (Z i i), (Z j j) by lia. reflexivity.
Qed.

Definition loop_inv (dev : nat -> R) (n k : nat) (d : R) : Prop :=
  ((k < n)%nat /\ 0 < d /\ d = dev k /\ (forall j, (j < n)%nat -> dev j <= d) /\ (forall j, (j < k)%nat -> dev j < d)) \/
  (k = 0%nat /\ d = 0 /\ forall j, (j < n)%nat -> dev j <= 0).
Lemma break_loop_inv multi dev fits : forall ys i best d, length fits = length ys ->
  (forall j, (j < length ys)%nat -> deviation multi (nth j ys 0) (nth j fits 0) = dev (i + j)%nat) -> loop_inv dev i best d ->
  exists d', loop_inv dev (i + length ys) (break_loop multi fits ys i best d) d'.
Proof.
  induction fits as [|f fits IH]; intros [|y ys] i best d L D I; try discriminate; cbn [break_loop length].
  - rewrite Nat.add_0_r. eauto.
  - assert (D0 := D 0%nat ltac:(cbn; lia)). cbn [nth] in D0. rewrite Nat.add_0_r in D0. rewrite D0.
    assert (D' : forall j, (j < length ys)%nat -> deviation multi (nth j ys 0) (nth j fits 0) = dev (S i + j)%nat).
    { intros j Hj. specialize (D (S j) ltac:(cbn; lia)). cbn [nth] in D. rewrite D. f_equal. lia. }
    replace (i + S (length ys))%nat with (S i + length ys)%nat by lia.
    destruct (rltb d (dev i)) eqn:E.
    + apply rltb_true in E. apply IH; [cbn in L; lia|exact D'|]. left.
      assert (P : 0 <= d) by (destruct I as [I|(_ & -> & _)]; lra).
      split; [lia|]. split; [lra|]. split; [reflexivity|]. split.
      * intros j Hj. destruct (Nat.eq_dec j i) as [->|]; [lra|].
        destruct I as [(_ & _ & _ & F & _)|(_ & -> & F)]; specialize (F j ltac:(lia)); lra.
      * intros j Hj. destruct I as [(_ & _ & _ & F & _)|(_ & -> & F)]; specialize (F j ltac:(lia)); lra.
    + apply rltb_false in E. apply IH; [cbn in L; lia|exact D'|].
      destruct I as [(Hb & P & Ed & F & S)|(-> & -> & F)]; [left|right].
      * repeat split; try assumption; [lia|]. intros j Hj. destruct (Nat.eq_dec j i) as [->|]; [lra|apply F; lia].
      * repeat split. intros j Hj. destruct (Nat.eq_dec j i) as [->|]; [lra|apply F; lia].
Qed.

Lemma at_ok l i : (i < length l)%nat -> at_ l i = Ok (nth i l 0).
Proof. intros H. unfold at_. rewrite (nth_error_nth' _ 0) by exact H. reflexivity. Qed.
Lemma interp2_chord x y lo hi j : (forall i j, (i < j < length x)%nat -> nth i x 0 < nth j x 0) -> (lo <= j < hi)%nat -> (hi < length x)%nat ->
  interp2 (nth lo x 0) (nth hi x 0) (nth lo y 0) (nth hi y 0) (nth j x 0) = chord x y lo hi (nth j x 0).
Proof.
  intros I Hj Hh. assert (A : nth j x 0 < nth hi x 0) by (apply I; lia).
  assert (B : nth lo x 0 <= nth j x 0). { destruct (Nat.eq_dec lo j) as [->|]; [lra|]. left. apply I. lia. }
  unfold interp2, seg, chord.
  replace (rltb (nth hi x 0) (nth j x 0)) with false by (symmetry; apply rltb_false; lra).
  replace (rltb (nth j x 0) (nth lo x 0)) with false by (symmetry; apply rltb_false; lra).
  replace (rltb (nth j x 0) (nth hi x 0)) with true by (symmetry; apply rltb_true; lra).
  destruct (reqb (nth lo x 0) (nth j x 0)) eqn:E.
  - apply reqb_true in E. rewrite E. unfold Rminus at 2, Rdiv. rewrite Rplus_opp_r. ring.
  - field. lra.
Qed.
Lemma find_breakpoint_spec x y lo hi multi : (forall i j, (i < j < length x)%nat -> nth i x 0 < nth j x 0) ->
  (lo < length x)%nat -> (hi < length x)%nat -> length y = length x ->
  exists k, find_breakpoint x y lo hi multi = Ok k /\ (k < length x)%nat /\
    breaks (fun i => deviation multi (nth i y 0) (chord x y lo hi (nth i x 0))) lo hi k.
Proof.
  intros I Hlo Hhi Hy. unfold find_breakpoint. rewrite !at_ok by lia. cbn [bind]. eexists. split; [reflexivity|].
  set (dev := fun i => deviation multi (nth i y 0) (chord x y lo hi (nth i x 0))).
  set (fits := map (interp2 (nth lo x 0) (nth hi x 0) (nth lo y 0) (nth hi y 0)) (slice x lo hi)).
  destruct (break_loop_inv multi (fun i => dev (lo + i)%nat) fits (slice y lo hi) 0 0 0) as (d & L).
  - unfold fits. rewrite map_length, !slice_length by lia. reflexivity.
  - intros j Hj. rewrite slice_length in Hj by lia. unfold fits, dev.
    rewrite (nth_indep (map _ _) 0 (interp2 (nth lo x 0) (nth hi x 0) (nth lo y 0) (nth hi y 0) 0)) by (rewrite map_length, slice_length; lia).
    rewrite map_nth, !nth_slice by lia. rewrite interp2_chord by (assumption || lia). reflexivity.
  - right. repeat split. intros; lia.
  - rewrite slice_length in L by lia. cbn [Nat.add] in L. set (k := break_loop multi fits (slice y lo hi) 0 0 0) in *.
    destruct L as [(Hk & P & Ed & F & S)|(Ek & _ & F)].
    + split; [lia|]. left. rewrite (Nat.add_comm k lo). split; [lia|]. rewrite Ed in *. split; [exact P|]. split.
      * intros j Hj. specialize (F (j - lo)%nat ltac:(lia)). replace (lo + (j - lo))%nat with j in F by lia. exact F.
      * intros j Hj. specialize (S (j - lo)%nat ltac:(lia)). replace (lo + (j - lo))%nat with j in S by lia. exact S.
    + rewrite Ek. cbn [Nat.add]. split; [exact Hlo|]. right. split; [reflexivity|]. intros j Hj.
      specialize (F (j - lo)%nat ltac:(lia)). cbn beta in F. replace (lo + (j - lo))%nat with j in F by lia. exact F.
Qed.

Lemma rev_filter_last p n : match rev (filter p (seq 0 n)) with
  | [] => forall i, (i < n)%nat -> p i = false
  | i :: _ => (i < n)%nat /\ p i = true /\ forall j, (j < n)%nat -> p j = true -> (j <= i)%nat end.
Proof.
  induction n as [|n IH]; [cbn; intros; lia|]. rewrite seq_S. cbn [Nat.add]. rewrite filter_app, rev_app_distr. cbn [filter].
  destruct (p n) eqn:E; cbn [rev app].
  - split; [lia|]. split; [exact E|]. intros; lia.
  - destruct (rev (filter p (seq 0 n))) as [|i r].
    + intros i Hi. destruct (Nat.eq_dec i n) as [->|]; [exact E|apply IH; lia].
    + destruct IH as (A & B & C). split; [lia|]. split; [exact B|]. intros j Hj Pj.
      destruct (Nat.eq_dec j n) as [->|]; [congruence|apply C; [lia|exact Pj]].
Qed.
Lemma last_local_min_spec cm lo hi : (lo < length cm)%nat -> (hi <= length cm)%nat ->
  match last_local_min cm lo hi with
  | Ok h => last_dip cm lo hi h /\ (h < length cm)%nat
  | Raise e => e = IndexError /\ (lo < hi)%nat /\ forall i, ~ dip cm lo hi i
  end.
Proof.
  intros Hlo Hh. unfold last_local_min, local_min. rewrite slice_length by exact Hh.
  set (c := slice cm lo hi).
  set (p := fun i => (Nat.eqb i 0 || rltb (nth i c 0) (nth (i - 1) c 0)) && (Nat.leb (hi - lo - 1) i || rltb (nth i c 0) (nth (i + 1) c 0))).
  assert (G : forall i, (i < hi - lo)%nat -> (p i = true <-> dip cm lo hi (lo + i))).
  { intros i Hi. unfold p, dip, c. rewrite andb_true_iff, !orb_true_iff, Nat.eqb_eq, Nat.leb_le, !rltb_true. split.
    - intros (A & B). split; [lia|]. split.
      + destruct (Nat.eq_dec i 0) as [->|N]; [left; lia|]. right. destruct A as [A|A]; [lia|].
        rewrite !nth_slice in A by lia. replace (lo + i - 1)%nat with (lo + (i - 1))%nat by lia. exact A.
      + destruct (Nat.eq_dec i (hi - lo - 1)) as [->|N]; [left; lia|]. right. destruct B as [B|B]; [lia|].
        rewrite !nth_slice in B by lia. replace (lo + i + 1)%nat with (lo + (i + 1))%nat by lia. exact B.
    - intros (L & A & B). split.
      + destruct A as [A|A]; [left; lia|]. destruct (Nat.eq_dec i 0) as [->|N]; [left; reflexivity|]. right.
        rewrite !nth_slice by lia. replace (lo + i - 1)%nat with (lo + (i - 1))%nat in A by lia. exact A.
      + destruct B as [B|B]; [left; lia|]. destruct (Nat.eq_dec i (hi - lo - 1)) as [->|N]; [left; lia|]. right.
        rewrite !nth_slice by lia. replace (lo + i + 1)%nat with (lo + (i + 1))%nat in B by lia. exact B. }
  destruct (Nat.le_gt_cases hi lo) as [E|E].
  - replace (hi - lo)%nat with 0%nat by lia. cbn [Nat.max seq filter].
    replace (p 0%nat) with true. { cbn [rev app]. split; [left; lia|lia]. }
    unfold p. replace (hi - lo - 1)%nat with 0%nat by lia. reflexivity.
  - replace (Nat.max 1 (hi - lo)) with (hi - lo)%nat by lia. assert (K := rev_filter_last p (hi - lo)).
    destruct (rev (filter p (seq 0 (hi - lo)))) as [|i r].
    + split; [reflexivity|]. split; [exact E|]. intros i D. assert (L := D). destruct L as (L & _).
      specialize (K (i - lo)%nat ltac:(lia)). assert (p (i - lo)%nat = true); [|congruence].
      apply G; [lia|]. replace (lo + (i - lo))%nat with i by lia. exact D.
    + destruct K as (A & B & C). split; [|lia]. right. rewrite Nat.add_comm. split; [apply G; assumption|].
      intros j D. assert (L := D). destruct L as (L & _). specialize (C (j - lo)%nat ltac:(lia)).
      assert ((j - lo <= i)%nat); [|lia]. apply C. apply G; [lia|]. replace (lo + (j - lo))%nat with j by lia. exact D.
Qed.
Lemma no_plateau_dip cm lo hi : no_plateau cm -> (lo < hi)%nat -> (hi <= length cm)%nat -> exists i, dip cm lo hi i.
Proof.
  intros NP L H. destruct (argmin_spec (slice cm lo hi)) as (i & Ei & _).
  { intros E. apply (f_equal (@length R)) in E. rewrite slice_length in E by exact H. cbn in E. lia. }
  apply argmin_first in Ei. rewrite slice_length in Ei by exact H. destruct Ei as (Hi & F & S).
  exists (lo + i)%nat. split; [lia|]. split.
  - destruct (Nat.eq_dec i 0) as [->|N]; [left; lia|right]. specialize (S (i - 1)%nat ltac:(lia)). rewrite !nth_slice in S by lia.
    replace (lo + i - 1)%nat with (lo + (i - 1))%nat by lia. exact S.
  - destruct (Nat.eq_dec i (hi - lo - 1)) as [->|N]; [left; lia|right]. specialize (F (i + 1)%nat ltac:(lia)). rewrite !nth_slice in F by lia.
    specialize (NP (lo + i)%nat ltac:(lia)). replace (lo + i + 1)%nat with (lo + (i + 1))%nat in * by lia. lra.
Qed.
