(** Lemmas about the extrapolated moment coefficient beyond the data. *)
From Coq Require Import Reals List Bool ZArith Lra Lia Sorted.
From Verif Require Import Prelim Interp Polar PolarExt InterpSpec InterpProofs PolarSpec PolarProofs PolarExtProofs PolarCmProofs
  PolarExtFacts MomentSpec.
Import ListNotations.
Open Scope R_scope.

(** * The moment at zero lift *)
Lemma crossing_test p i : (S i < length (p_alpha p))%nat ->
  (rltb (Rabs (nth i (p_alpha p) 0)) 20 && rleb (nth i (p_cl p) 0) 0 && rleb 0 (nth (S i) (p_cl p) 0) = true <->
   crosses_zero_lift p i).
Proof.
  intros Hi. rewrite !andb_true_iff, rltb_true, !rleb_true. unfold crosses_zero_lift. split.
  - intros [[A B] C]. apply Rabs_def2 in A. repeat split; try assumption; lra.
  - intros (_ & A & B & C). repeat split; try assumption. apply Rabs_def1; lra.
Qed.

Lemma scan_spec al : forall cl cm, length cl = length al -> length cm = length al ->
  match cm0_scan al cl cm with
  | Some c => exists i, (S i < length al)%nat /\
      rltb (Rabs (nth i al 0)) 20 && rleb (nth i cl 0) 0 && rleb 0 (nth (S i) cl 0) = true /\
      (forall j, (j < i)%nat -> rltb (Rabs (nth j al 0)) 20 && rleb (nth j cl 0) 0 && rleb 0 (nth (S j) cl 0) = false) /\
      c = nth i cm 0 + - nth i cl 0 / (nth (S i) cl 0 - nth i cl 0) * (nth (S i) cm 0 - nth i cm 0)
  | None => forall i, (S i < length al)%nat ->
      rltb (Rabs (nth i al 0)) 20 && rleb (nth i cl 0) 0 && rleb 0 (nth (S i) cl 0) = false
  end.
Proof.
  induction al as [|a al IH]; intros cl cm L1 L2; [cbn; intros; lia|].
  destruct cl as [|c0 cl]; [discriminate|]. destruct cm as [|m0 cm]; [discriminate|].
  destruct cl as [|c1 cl].
  { destruct al; [|discriminate]. cbn. intros; lia. }
  destruct cm as [|m1 cm]; [exfalso; simpl in *; lia|].
  cbn [cm0_scan]. destruct (rltb (Rabs a) 20 && rleb c0 0 && rleb 0 c1) eqn:E.
  - exists 0%nat. split; [simpl in *; lia|]. split; [exact E|]. split; [intros; lia|reflexivity].
  - specialize (IH (c1 :: cl) (m1 :: cm) ltac:(simpl in *; lia) ltac:(simpl in *; lia)).
    destruct (cm0_scan al (c1 :: cl) (m1 :: cm)) as [c|].
    + destruct IH as (i & A & B & C & D). exists (S i). split; [simpl; lia|]. split; [exact B|]. split; [|exact D].
      intros [|j] Hj; [exact E|]. apply (C j). lia.
    + intros [|i] Hi; [exact E|]. apply (IH i). simpl in *; lia.
Qed.

Lemma zero_lift p c : wf_polar p -> moment_regular p -> cm0 p = Ok c -> zero_lift_moment p c.
Proof.
  intros (_ & _ & L1 & _ & L3) (_ & _ & _ & R0 & R1) E. unfold cm0 in E.
  pose proof (scan_spec (p_alpha p) (p_cl p) (p_cm p) L1 L3) as S.
  destruct (cm0_scan (p_alpha p) (p_cl p) (p_cm p)) as [d|].
  - apply ok_inj in E. subst d. left. destruct S as (i & Hi & A & B & C). exists i.
    apply crossing_test in A; [|exact Hi]. split; [exact A|]. split.
    + intros j Hj Hx. apply crossing_test in Hx; [|destruct Hx; assumption]. rewrite (B j Hj) in Hx. discriminate.
    + unfold moment_without_lift. rewrite C. field. destruct A as (_ & _ & A1 & A2).
      destruct (R1 i ltac:(rewrite L1; exact Hi)); lra.
  - right. split.
    + intros i Hx. pose proof Hx as (Hi & _). apply crossing_test in Hx; [|exact Hi]. rewrite (S i Hi) in Hx. discriminate.
    + unfold moment_without_lift. destruct (p_cl p) as [|c0 [|c1 cl]]; try discriminate.
      destruct (p_cm p) as [|m0 [|m1 cm]]; try discriminate. apply ok_inj in E. subst c. cbn [nth] in *. field. lra.
Qed.

(** * The values of the table *)
Definition node (p : polar) (c0 : R) (hcl hcd : R -> R) (a : R) : R :=
  match getCM (cmCoef (radians (final (p_alpha p))) (final (p_cl p)) (final (p_cd p)) (final (p_cm p)) c0) c0 a (hcl a) (hcd a)
    (first (p_alpha p)) (final (p_alpha p)) with Some c => c | None => 0 end.

Lemma node_inside p c0 hcl hcd a : first (p_alpha p) <= a <= final (p_alpha p) -> node p c0 hcl hcd a = 0.
Proof.
  intros H. unfold node, getCM.
  replace (rleb (first (p_alpha p)) a) with true by (symmetry; apply rleb_true; tauto).
  replace (rleb a (final (p_alpha p))) with true by (symmetry; apply rleb_true; tauto). reflexivity.
Qed.

Lemma tan_shift a : sin a <> 0 -> tan (a - PI / 2) = - cos a / sin a.
Proof.
  intros H. unfold tan. rewrite sin_minus, cos_minus, sin_PI2, cos_PI2. field. exact H.
Qed.

Lemma sin_tens t : 0 < t < 180 -> sin (radians t) <> 0.
Proof.
  intros H. assert (0 < sin (radians t)); [|lra]. apply sin_gt_0; unfold radians; pose proof PI_RGT_0; nra.
Qed.

Lemma arm_law p c0 a : moment_regular p -> -90 < final (p_alpha p) -> sin a <> 0 ->
  let ah := radians (final (p_alpha p)) in
  let cc := cmCoef ah (final (p_cl p)) (final (p_cd p)) (final (p_cm p)) c0 in
  exists xh, final (p_cm p) = c0 - xh * normal_force (final (p_cl p)) (final (p_cd p)) ah /\
    (cc * tan (a - PI / 2) + 1 / 4 - 1 / 4) * sin a * cos ah = (xh - 1 / 4) * sin ah * cos a.
Proof.
  intros (R0 & R1 & R2 & _) Hl Hs ah cc. fold ah in R2.
  assert (Ca : 0 < cos ah).
  { apply cos_gt_0; unfold ah, radians; pose proof PI_RGT_0; nra. }
  assert (Sa : sin ah <> 0).
  { unfold ah. destruct (Rlt_le_dec 0 (final (p_alpha p))) as [H|H]; [apply sin_tens; lra|].
    replace (final (p_alpha p)) with (- - final (p_alpha p)) by ring. rewrite radians_opp, sin_neg.
    assert (sin (radians (- final (p_alpha p))) <> 0) by (apply sin_tens; lra). lra. }
  exists ((- final (p_cm p) + c0) / normal_force (final (p_cl p)) (final (p_cd p)) ah). split.
  - unfold normal_force. field. exact R2.
  - unfold cc, cmCoef, normal_force. rewrite !tan_shift by assumption. field. repeat split; try assumption; lra.
Qed.

Ltac rb := repeat match goal with
  | |- context [rltb ?a ?b] => first [replace (rltb a b) with true by (symmetry; apply rltb_true; lra) | replace (rltb a b) with false by (symmetry; apply rltb_false; lra)]
  | |- context [reqb ?a ?b] => first [replace (reqb a b) with true by (symmetry; apply reqb_true; lra) | replace (reqb a b) with false by (symmetry; apply reqb_false; lra)]
  end.

Lemma node_outside p c0 hcl hcd t : moment_regular p -> -90 < final (p_alpha p) ->
  multiple_of_ten t -> -180 <= t <= 180 -> (t < first (p_alpha p) \/ final (p_alpha p) < t) ->
  table_moment p c0 t (hcl t) (hcd t) (node p c0 hcl hcd t).
Proof.
  intros R Hl [z Hz] Ht Ho. unfold node, getCM.
  assert (Hin : rleb (first (p_alpha p)) t && rleb t (final (p_alpha p)) = false).
  { apply andb_false_iff. rewrite !rleb_false. tauto. }
  rewrite Hin. clear Hin Ho.
  assert (Cz : (z = 18 \/ z = 17 \/ z = -17 \/ z = -18 \/ z = 0 \/ 1 <= z <= 16 \/ -16 <= z <= -1)%Z).
  { assert (-18 <= IZR z <= 18) as [A B] by lra. apply le_IZR in A. apply le_IZR in B. lia. }
  unfold table_moment.
  destruct Cz as [C|[C|[C|[C|[C|[[C D]|[C D]]]]]]].
  1-5: (rewrite C in Hz; rb; cbn [andb]; repeat split; intros; lra || idtac).
  all: try (apply IZR_le in C; apply IZR_le in D).
  - rewrite Rabs_pos_eq by lra. rb. repeat split; intros; lra.
  - rewrite Rabs_pos_eq by lra. rb. cbn [andb]. repeat split; intros; try lra.
    destruct (arm_law p c0 (radians t) R Hl) as (xh & A & B); [apply sin_tens; lra|].
    unfold flat_plate_moment. eexists xh, _. split; [exact A|]. split; [exact B|]. reflexivity.
  - rewrite Rabs_left by lra. rb. cbn [andb]. repeat split; intros; try lra.
    destruct (arm_law p c0 (radians (- t)) R Hl) as (xh & A & B); [apply sin_tens; lra|].
    unfold flat_plate_moment. eexists xh, _. split; [exact A|]. split; [exact B|]. rewrite !radians_opp. unfold normal_force. ring.
Qed.

Lemma map2_zeros (g : R -> R * (R * R) -> R) (hcl hcd : R -> R) (l : list R) :
  map2 g (map (fun _ => 0) l) (combine l (combine (map hcl l) (map hcd l))) = map (fun a => g 0 (a, (hcl a, hcd a))) l.
Proof. unfold map2. induction l as [|x l IH]; [reflexivity|]. cbn [map combine fst snd]. f_equal. exact IH. Qed.

Lemma table_values p deg cl cd : wf_polar p -> (2 <= length (p_alpha p))%nat -> some_moment p ->
  deg <> [] -> length deg = length cl -> length deg = length cd ->
  let L1 := cm_alpha1 (first (p_alpha p)) in
  let L2 := cm_alpha2 (final (p_alpha p)) in
  exists c0, cm0 p = Ok c0 /\
    let v := node p c0 (fun x => interp x deg cl) (fun x => interp x deg cd) in
    cm_extrapolated p (radians (final (p_alpha p))) (final (p_cl p)) (final (p_cd p)) (final (p_cm p)) deg cl cd =
    Ok (map (fun x => interp x (L1 ++ p_alpha p ++ L2) (map v L1 ++ p_cm p ++ map v L2)) deg).
Proof.
  intros W H2 (c & Ic & Nc) Hd Lcl Lcd L1 L2. unfold cm_extrapolated. rewrite !last_final.
  change (nth 0 (p_alpha p) 0) with (first (p_alpha p)). cbv zeta. fold L1 L2.
  assert (Lcm : length (p_alpha p) = length (p_cm p)) by (symmetry; apply W).
  assert (Ne : L1 ++ p_alpha p ++ L2 <> []).
  { intros E. apply app_eq_nil in E. destruct E as [_ E]. apply app_eq_nil in E. destruct W. tauto. }
  assert (Ex : existsb (fun c => negb (reqb c 0)) (p_cm p) = true).
  { apply existsb_exists. exists c. split; [exact Ic|]. apply negb_true_iff. apply reqb_false. exact Nc. }
  rewrite Ex. destruct (cm0_ok p W H2) as [c0 Ec]. exists c0. split; [exact Ec|]. rewrite Ec. cbn [bind].
  rewrite (np_interp_ok _ deg cl) by assumption. cbn [bind]. rewrite (np_interp_ok _ deg cd) by assumption. cbn [bind].
  set (hcl := fun x => interp x deg cl). set (hcd := fun x => interp x deg cd).
  set (g := fun (x : R) (acld : R * (R * R)) => match getCM _ c0 (fst acld) (fst (snd acld)) (snd (snd acld))
      (first (p_alpha p)) (final (p_alpha p)) with Some c => c | None => x end).
  set (tab := fun l : list R => combine l (combine (map hcl l) (map hcd l))).
  assert (Ltab : forall l, length (tab l) = length l).
  { intros l. unfold tab. rewrite !combine_length, !map_length. lia. }
  assert (Etab : combine (L1 ++ p_alpha p ++ L2) (combine (map hcl (L1 ++ p_alpha p ++ L2)) (map hcd (L1 ++ p_alpha p ++ L2))) =
     tab L1 ++ tab (p_alpha p) ++ tab L2).
  { unfold tab. rewrite !map_app. rewrite !combine_app by (rewrite ?combine_length, ?map_length; lia). reflexivity. }
  rewrite Etab. clear Etab.
  rewrite map2_app by (rewrite map_length, Ltab; reflexivity).
  rewrite map2_app by (rewrite Ltab; symmetry; exact Lcm).
  rewrite (map2_fst g (p_cm p)); [|rewrite Ltab; symmetry; exact Lcm|].
  2: { intros x y _ Hy. unfold tab in Hy. destruct y as (a, (b, d)). apply in_combine_l in Hy.
       pose proof (in_first_final _ _ (proj1 (proj2 W)) Hy) as Ha. unfold g, getCM. cbn [fst snd].
       replace (rleb (first (p_alpha p)) a) with true by (symmetry; apply rleb_true; tauto).
       replace (rleb a (final (p_alpha p))) with true by (symmetry; apply rleb_true; tauto). reflexivity. }
  unfold tab. rewrite !map2_zeros.
  apply np_interp_ok; [exact Ne|]. rewrite !app_length, !map_length. lia.
Qed.

Lemma extrapolate_values p cdmax AR cdmin n : extendable p -> some_moment p -> 0 <= cdmin -> exists c0 F1 F2,
  cm0 p = Ok c0 /\ extrapolate p cdmax AR cdmin n = Ok (ext_polar p cdmax AR cdmin n F1 F2) /\
  let b := ext_polar p cdmax AR cdmin n F1 F2 in
  let v := node p c0 (ival CL b) (ival CD b) in
  F1 = map v (cm_alpha1 (first (p_alpha p))) /\ F2 = map v (cm_alpha2 (final (p_alpha p))).
Proof.
  intros (W & Hlo & Hhi & Hc) Hs Hmin. rewrite extrapolate_eq by assumption. cbv zeta.
  assert (H2 : (2 <= length (p_alpha p))%nat).
  { destruct Hc as [Hc|Hc]; [|exact Hc]. exfalso. destruct Hs as (c & I & N). rewrite Forall_forall in Hc. exact (N (Hc c I)). }
  destruct (table_values p (ext_deg p n) (cl_before p n (cdm p cdmax AR) ++ p_cl p ++ cl_after p n (cdm p cdmax AR))
    (map (fun c => Rmax c cdmin) (cd_before p n (cdm p cdmax AR)) ++ map (fun c => Rmax c cdmin) (p_cd p) ++
     map (fun c => Rmax c cdmin) (cd_after p n (cdm p cdmax AR))) W H2 Hs) as (c0 & Ec & E).
  - unfold ext_deg. intros E. apply app_eq_nil in E. destruct E as [_ E]. apply app_eq_nil in E. destruct W. tauto.
  - unfold ext_deg. rewrite !app_length, !map_length, cl_before_length, cl_after_length. destruct W as (_ & _ & -> & _). reflexivity.
  - unfold ext_deg. rewrite !app_length, !map_length, cd_before_length, cd_after_length. destruct W as (_ & _ & _ & -> & _). reflexivity.
  - cbv zeta in E. unfold ext_deg in E at 1. eexists c0, _, _. split; [exact Ec|]. rewrite E. cbn [bind].
    split; [reflexivity|]. split; reflexivity.
Qed.

(** * The angles of the table *)
Lemma tens_up an : an <= 90 -> exists n, (10 <= n)%nat /\ 10 * INR (n - 1) = 180 - ten_above an /\
  cm_alpha2 an = map (fun k => ten_above an + INR k * 10) (seq 0 n).
Proof.
  intros H. unfold cm_alpha2. fold (ten_above an). cbv zeta.
  set (z := (- Int_part (- (an / 10)))%Z). assert (E : ten_above an = 10 * IZR z).
  { unfold ten_above, rceil, rfloor, z. rewrite opp_IZR. ring. }
  assert (Hz : (z <= 9)%Z).
  { pose proof (above_bounds an) as [B _]. rewrite E in B. assert (IZR z < 10) as C by lra. apply lt_IZR in C. lia. }
  exists (Z.to_nat (19 - z)). split; [lia|].
  assert (En : 10 * INR (Z.to_nat (19 - z) - 1) = 180 - ten_above an).
  { rewrite INR_IZR_INZ. replace (Z.of_nat (Z.to_nat (19 - z) - 1)) with (18 - z)%Z by lia. rewrite minus_IZR, E. ring. }
  split; [exact En|].
  replace (trunc ((180 - ten_above an) / 10 + 1)) with (19 - z)%Z.
  2: { replace ((180 - ten_above an) / 10 + 1) with (IZR (19 - z)); [symmetry; apply trunc_IZR|]. rewrite minus_IZR, E. field. }
  unfold linspace. replace ((180 - ten_above an) / INR (Z.to_nat (19 - z) - 1)) with 10; [reflexivity|].
  rewrite <- En. field. apply not_0_INR. lia.
Qed.

Lemma tens_down a0 : -90 <= a0 -> exists n, (10 <= n)%nat /\ 10 * INR (n - 1) = ten_below a0 + 180 /\
  cm_alpha1 a0 = map (fun k => -180 + INR k * 10) (seq 0 n).
Proof.
  intros H. destruct (alpha1_eq a0 H) as (n & Hn & E & En). exists n. split; [exact Hn|]. split; [exact En|].
  rewrite E. unfold linspace. replace ((ten_below a0 - -180) / INR (n - 1)) with 10; [reflexivity|].
  replace (ten_below a0 - -180) with (10 * INR (n - 1)) by lra. field. apply not_0_INR. lia.
Qed.

Lemma seq_split2 k n : (S k < n)%nat -> seq 0 n = seq 0 k ++ k :: S k :: seq (S (S k)) (n - S (S k)).
Proof.
  intros H. replace n with (k + S (S (n - S (S k))))%nat at 1 by lia. rewrite seq_app. cbn [seq Nat.add]. reflexivity.
Qed.

Lemma seq_split1 n : (1 <= n)%nat -> seq 0 n = seq 0 (n - 1) ++ [(n - 1)%nat].
Proof. intros H. replace n with (n - 1 + 1)%nat at 1 by lia. rewrite seq_app. reflexivity. Qed.

(** t = c + 10 k for multiples of ten *)
Lemma steps c t : multiple_of_ten c -> multiple_of_ten t -> c <= t -> exists k, t = c + INR k * 10.
Proof.
  intros [y Hy] [z Hz] H. exists (Z.to_nat (z - y)). rewrite INR_IZR_INZ.
  assert (y <= z)%Z by (apply le_IZR; lra). rewrite Z2Nat.id by lia. rewrite minus_IZR. lra.
Qed.

Lemma ten_above_ten x : multiple_of_ten (ten_above x).
Proof. exists (- Int_part (- (x / 10)))%Z. unfold ten_above, rceil, rfloor. rewrite opp_IZR. ring. Qed.
Lemma ten_below_ten x : multiple_of_ten (ten_below x).
Proof. exists (Int_part (x / 10)). unfold ten_below, rfloor. ring. Qed.

Lemma ten_above_least x t : multiple_of_ten t -> x <= t -> ten_above x <= t.
Proof.
  intros [z Hz] H. destruct (ten_above_ten x) as [y Hy]. pose proof (above_bounds x).
  rewrite Hy, Hz. assert (IZR y < IZR z + 1) as Q by lra. rewrite <- plus_IZR in Q. apply lt_IZR in Q.
  assert (IZR y <= IZR z) by (apply IZR_le; lia). lra.
Qed.
Lemma ten_below_greatest x t : multiple_of_ten t -> t <= x -> t <= ten_below x.
Proof.
  intros [z Hz] H. destruct (ten_below_ten x) as [y Hy]. pose proof (below_bounds x).
  rewrite Hy, Hz. assert (IZR z < IZR y + 1) as Q by lra. rewrite <- plus_IZR in Q. apply lt_IZR in Q.
  assert (IZR z <= IZR y) by (apply IZR_le; lia). lra.
Qed.

Section Table.
Variable p : polar.
Hypothesis X : extendable p.
Variable v : R -> R.
Notation a0 := (first (p_alpha p)).
Notation an := (final (p_alpha p)).
Notation L1 := (cm_alpha1 a0).
Notation L2 := (cm_alpha2 an).
Definition V (x : R) : R := interp x (L1 ++ p_alpha p ++ L2) (map v L1 ++ p_cm p ++ map v L2).

Lemma alpha_le : Forall (fun y => y <= an) (p_alpha p).
Proof. apply Forall_forall. intros y Hy. apply in_first_final; [apply X|exact Hy]. Qed.

Lemma ends : a0 <= an.
Proof. apply (in_first_final (p_alpha p) a0); [apply X|apply first_in, X]. Qed.

Lemma low_le : Forall (fun y => y <= a0) L1.
Proof.
  destruct X as (_ & H & _). destruct (tens_down a0 H) as (n & Hn & En & ->). apply Forall_forall. intros y Hy.
  apply in_map_iff in Hy. destruct Hy as (k & <- & Hk). apply in_seq in Hk. pose proof (below_bounds a0).
  assert (INR k <= INR (n - 1)) by (apply le_INR; lia). lra.
Qed.

Lemma above_seg t x : multiple_of_ten t -> an <= t -> t + 10 <= 180 -> t <= x < t + 10 ->
  V x = seg t (v t) (t + 10) (v (t + 10)) x.
Proof.
  intros Ht Hl Hu Hx. destruct X as (W & _ & H & _). destruct (tens_up an H) as (n & Hn & En & E).
  destruct (steps (ten_above an) t (ten_above_ten an) Ht (ten_above_least an t Ht Hl)) as (k & Ek).
  assert (Hk : (S k < n)%nat).
  { assert (INR k + 1 <= INR (n - 1)) as Q by lra. rewrite <- S_INR in Q. apply INR_le in Q. lia. }
  unfold V. rewrite E. rewrite (seq_split2 k n Hk). rewrite !map_app. cbn [map].
  set (f := fun k0 : nat => ten_above an + INR k0 * 10).
  replace (ten_above an + INR k * 10) with t by lra.
  replace (ten_above an + INR (S k) * 10) with (t + 10) by (rewrite S_INR; lra).
  replace (L1 ++ p_alpha p ++ map f (seq 0 k) ++ t :: (t + 10) :: map f (seq (S (S k)) (n - S (S k)))) with
    ((L1 ++ p_alpha p ++ map f (seq 0 k)) ++ t :: (t + 10) :: map f (seq (S (S k)) (n - S (S k)))) by (rewrite <- !app_assoc; reflexivity).
  match goal with |- interp _ _ (?A ++ ?B ++ ?C ++ ?D) = _ => replace (A ++ B ++ C ++ D) with ((A ++ B ++ C) ++ D) by (rewrite <- !app_assoc; reflexivity) end.
  apply interp_on_seg; [|apply Forall_app; split; [|apply Forall_app; split]|exact Hx].
  - rewrite !app_length, !map_length. destruct W as (_ & _ & _ & _ & ->). reflexivity.
  - eapply Forall_impl; [|apply low_le]. pose proof ends. cbv beta. intros; lra.
  - eapply Forall_impl; [|apply alpha_le]. cbv beta. intros; lra.
  - apply Forall_forall. intros y Hy. apply in_map_iff in Hy. destruct Hy as (j & <- & Hj). apply in_seq in Hj.
    assert (INR j <= INR k) by (apply le_INR; lia). unfold f. lra.
Qed.

Lemma above_end : V 180 = v 180.
Proof.
  destruct X as (W & _ & H & _). destruct (tens_up an H) as (n & Hn & En & E).
  unfold V. rewrite E. rewrite (seq_split1 n) by lia. rewrite !map_app. cbn [map].
  set (f := fun k0 : nat => ten_above an + INR k0 * 10).
  replace (ten_above an + INR (n - 1) * 10) with 180 by lra.
  match goal with |- interp _ (?A ++ ?B ++ ?C ++ ?D) (?A' ++ ?B' ++ ?C' ++ ?D') = _ =>
    replace (A ++ B ++ C ++ D) with ((A ++ B ++ C) ++ D) by (rewrite <- !app_assoc; reflexivity);
    replace (A' ++ B' ++ C' ++ D') with ((A' ++ B' ++ C') ++ D') by (rewrite <- !app_assoc; reflexivity) end.
  apply interp_at_node; [|apply Forall_app; split; [|apply Forall_app; split]|left; reflexivity|reflexivity].
  - rewrite !app_length, !map_length. destruct W as (_ & _ & _ & _ & ->). reflexivity.
  - eapply Forall_impl; [|apply low_le]. pose proof ends. cbv beta. intros; lra.
  - eapply Forall_impl; [|apply alpha_le]. cbv beta. intros; lra.
  - apply Forall_forall. intros y Hy. apply in_map_iff in Hy. destruct Hy as (j & <- & Hj). apply in_seq in Hj.
    assert (INR j <= INR (n - 1)) by (apply le_INR; lia). unfold f. lra.
Qed.

Lemma below_seg t x : multiple_of_ten t -> -180 <= t -> t + 10 <= a0 -> t <= x < t + 10 ->
  V x = seg t (v t) (t + 10) (v (t + 10)) x.
Proof.
  intros Ht Hl Hu Hx. destruct X as (W & H & _). destruct (tens_down a0 H) as (n & Hn & En & E).
  assert (M180 : multiple_of_ten (-180)) by (exists (-18)%Z; lra).
  assert (Mt : multiple_of_ten (t + 10)) by (destruct Ht as [z Hz]; exists (z + 1)%Z; rewrite plus_IZR; lra).
  destruct (steps (-180) t M180 Ht Hl) as (k & Ek). pose proof (ten_below_greatest a0 _ Mt Hu) as Hb.
  assert (Hk : (S k < n)%nat).
  { assert (INR k + 1 <= INR (n - 1)) as Q by lra. rewrite <- S_INR in Q. apply INR_le in Q. lia. }
  unfold V. rewrite E. rewrite (seq_split2 k n Hk). rewrite !map_app. cbn [map].
  set (f := fun k0 : nat => -180 + INR k0 * 10).
  replace (-180 + INR k * 10) with t by lra.
  replace (-180 + INR (S k) * 10) with (t + 10) by (rewrite S_INR; lra).
  rewrite <- !app_assoc. cbn [app].
  apply interp_on_seg; [|apply Forall_forall; intros y Hy|exact Hx].
  - rewrite !map_length. reflexivity.
  - apply in_map_iff in Hy. destruct Hy as (j & <- & Hj). apply in_seq in Hj.
    assert (INR j <= INR k) by (apply le_INR; lia). unfold f. lra.
Qed.

Lemma list_final (l : list R) : l <> [] -> exists u, l = u ++ [final l] /\ length l = S (length u).
Proof.
  intros H. destruct (exists_last H) as (u & y & ->). exists u. rewrite final_app by discriminate.
  split; [reflexivity|]. rewrite app_length. simpl. lia.
Qed.

Lemma above_gap c x : multiple_of_ten c -> an < c -> c - 10 < an -> an <= x < c ->
  V x = seg an (final (p_cm p)) c (v c) x.
Proof.
  intros Hc Hl Hu Hx. destruct X as (W & _ & H & _). destruct (tens_up an H) as (n & Hn & En & E).
  assert (Ec : ten_above an = c).
  { apply Rle_antisym; [apply ten_above_least; [exact Hc|lra]|].
    destruct Hc as [z Hz]. destruct (ten_above_ten an) as [y Hy]. pose proof (above_bounds an).
    rewrite Hy, Hz in *. assert (IZR z < IZR y + 1) as Q by lra. rewrite <- plus_IZR in Q. apply lt_IZR in Q.
    assert (IZR z <= IZR y) by (apply IZR_le; lia). lra. }
  unfold V. rewrite E. replace n with (S (n - 1)) by lia. cbn [seq map]. rewrite Ec.
  replace (c + INR 0 * 10) with c by (simpl; ring).
  destruct W as (N & I & _ & _ & L).
  destruct (list_final (p_alpha p) N) as (u & Eu & Lu). assert (Nm : p_cm p <> []) by (destruct (p_cm p); [simpl in L; lia|discriminate]).
  destruct (list_final (p_cm p) Nm) as (w & Ew & Lw).
  set (T := map (fun k => c + INR k * 10) (seq 1 (n - 1))).
  assert (A1 : L1 ++ p_alpha p ++ c :: T = (L1 ++ u) ++ an :: c :: T).
  { rewrite Eu at 2. rewrite <- !app_assoc. reflexivity. }
  assert (A2 : map v L1 ++ p_cm p ++ v c :: map v T = (map v L1 ++ w) ++ final (p_cm p) :: v c :: map v T).
  { rewrite Ew at 1. rewrite <- !app_assoc. reflexivity. }
  rewrite A1, A2. apply interp_on_seg; [rewrite !app_length, map_length; lia| |lra].
  apply Forall_app. split; [eapply Forall_impl; [|apply low_le]; pose proof ends; cbv beta; intros; lra|].
  pose proof alpha_le as Q. rewrite Eu in Q. apply Forall_app in Q. destruct Q as [Q _].
  eapply Forall_impl; [|exact Q]. cbv beta. rewrite <- Eu. intros; lra.
Qed.

Lemma below_gap c x : multiple_of_ten c -> c < a0 -> a0 < c + 10 -> c <= x < a0 ->
  V x = seg c (v c) a0 (first (p_cm p)) x.
Proof.
  intros Hc Hl Hu Hx. destruct X as (W & H & _). destruct (tens_down a0 H) as (n & Hn & En & E).
  assert (Ec : ten_below a0 = c).
  { apply Rle_antisym; [|apply ten_below_greatest; [exact Hc|lra]].
    destruct Hc as [z Hz]. destruct (ten_below_ten a0) as [y Hy]. pose proof (below_bounds a0).
    rewrite Hy, Hz in *. assert (IZR y < IZR z + 1) as Q by lra. rewrite <- plus_IZR in Q. apply lt_IZR in Q.
    assert (IZR y <= IZR z) by (apply IZR_le; lia). lra. }
  unfold V. rewrite E. rewrite (seq_split1 n) by lia. rewrite !map_app. cbn [map].
  set (f := fun k0 : nat => -180 + INR k0 * 10).
  replace (-180 + INR (n - 1) * 10) with c by lra.
  destruct W as (N & I & _ & _ & L).
  destruct (p_alpha p) as [|y al] eqn:Ea; [congruence|]. destruct (p_cm p) as [|m cm]; [discriminate|].
  change (first (y :: al)) with y in *. change (first (m :: cm)) with m.
  rewrite <- !app_assoc. cbn [app].
  apply interp_on_seg; [rewrite !map_length; reflexivity| |lra].
  apply Forall_forall. intros q Hq. apply in_map_iff in Hq. destruct Hq as (j & <- & Hj). apply in_seq in Hj.
  assert (INR j <= INR (n - 1)) by (apply le_INR; lia). unfold f. lra.
Qed.
End Table.

(** * The extrapolated moment *)
Lemma on_seg x0 y0 x1 y1 x y : x0 < x1 -> y = seg x0 y0 x1 y1 x -> on_line x0 y0 x1 y1 x y.
Proof. intros H ->. unfold on_line. apply seg_value. exact H. Qed.

Lemma from_left x l : forall fl x0 f0 B FB, length l = length fl -> (exists y, In y l /\ x < y) ->
  interp_from x x0 f0 (l ++ B) (fl ++ FB) = interp_from x x0 f0 l fl.
Proof.
  induction l as [|x1 l IH]; intros fl x0 f0 B FB L (y & I & H); [destruct I|].
  destruct fl as [|f1 fl]; [discriminate|]. cbn [app interp_from]. destruct (rltb x x1) eqn:E; [reflexivity|].
  apply IH; [simpl in L; lia|]. destruct I as [->|I]; [apply rltb_false in E; lra|]. exists y. auto.
Qed.

Lemma interp_left x l fl B FB : length l = length fl -> (exists y, In y l /\ x < y) ->
  interp x (l ++ B) (fl ++ FB) = interp x l fl.
Proof.
  intros L (y & I & H). destruct l as [|x0 l]; [destruct I|]. destruct fl as [|f0 fl]; [discriminate|]. cbn [app interp].
  destruct (rltb x x0) eqn:E; [reflexivity|]. apply from_left; [simpl in L; lia|]. exists y. split; [|exact H].
  destruct I as [->|I]; [apply rltb_false in E; lra|exact I].
Qed.

Lemma from_right x l : forall fl x0 f0 b0 B fb FB, length l = length fl -> Forall (fun y => y <= x) l -> b0 <= x ->
  interp_from x x0 f0 (l ++ b0 :: B) (fl ++ fb :: FB) = interp_from x b0 fb B FB.
Proof.
  induction l as [|x1 l IH]; intros fl x0 f0 b0 B fb FB L H Hb.
  - destruct fl; [|discriminate]. cbn [app interp_from]. replace (rltb x b0) with false by (symmetry; apply rltb_false; lra). reflexivity.
  - destruct fl as [|f1 fl]; [discriminate|]. inversion H as [|? ? H1 H2]; subst. cbn [app interp_from].
    replace (rltb x x1) with false by (symmetry; apply rltb_false; lra). apply IH; [simpl in L; lia|exact H2|exact Hb].
Qed.

Lemma interp_right x l fl B FB : length l = length fl -> length B = length FB -> B <> [] ->
  Forall (fun y => y <= x) l -> first B <= x ->
  interp x (l ++ B) (fl ++ FB) = interp x B FB.
Proof.
  intros L LB N H Hb. destruct B as [|b0 B]; [congruence|]. destruct FB as [|fb FB]; [discriminate|].
  unfold first in Hb. cbn [nth] in Hb. destruct l as [|x0 l].
  - destruct fl; [|discriminate]. reflexivity.
  - destruct fl as [|f0 fl]; [discriminate|]. inversion H as [|? ? H1 H2]; subst. cbn [app interp].
    replace (rltb x x0) with false by (symmetry; apply rltb_false; lra).
    replace (rltb x b0) with false by (symmetry; apply rltb_false; lra). apply from_right; [simpl in L; lia|exact H2|exact Hb].
Qed.

Lemma polygon_left x y l fl B FB : length l = length fl -> l <> [] -> increasing l -> x < final l ->
  (forall q, In q B -> final l <= q) ->
  polygon_value l fl x y -> polygon_value (l ++ B) (fl ++ FB) x y.
Proof.
  intros L N I Hx HB (P1 & P2 & P3).
  assert (Nl : (0 < length l)%nat) by (destruct l; [congruence|simpl; lia]).
  assert (HG : forall i, (length l - 1 <= i < length (l ++ B))%nat -> x < nth i (l ++ B) 0).
  { intros i Hi. destruct (Nat.eq_dec i (length l - 1)) as [->|E]; [rewrite app_nth1 by lia; exact Hx|].
    rewrite app_nth2 by lia. rewrite app_length in Hi. specialize (HB (nth (i - length l) B 0) ltac:(apply nth_In; lia)). lra. }
  split; [|split].
  - rewrite !app_nth1 by lia. exact P1.
  - intros Q. exfalso. specialize (HG (length (l ++ B) - 1)%nat ltac:(rewrite app_length; lia)). lra.
  - intros i Hi [A C]. destruct (Nat.lt_ge_cases (S i) (length l)) as [K|K].
    + rewrite !app_nth1 in * by lia. apply P3; [exact K|lra].
    + exfalso. specialize (HG i ltac:(lia)). lra.
Qed.

Lemma polygon_right x y l fl B FB : length l = length fl -> B <> [] -> first B < x ->
  (forall q, In q l -> q <= first B) ->
  polygon_value B FB x y -> polygon_value (l ++ B) (fl ++ FB) x y.
Proof.
  intros L N Hx HB (P1 & P2 & P3).
  assert (Nb : (0 < length B)%nat) by (destruct B; [congruence|simpl; lia]).
  assert (HG : forall i, (i <= length l)%nat -> nth i (l ++ B) 0 < x).
  { intros i Hi. destruct (Nat.eq_dec i (length l)) as [->|E].
    - rewrite app_nth2 by lia. rewrite Nat.sub_diag. exact Hx.
    - rewrite app_nth1 by lia. specialize (HB (nth i l 0) ltac:(apply nth_In; lia)). lra. }
  split; [|split].
  - intros Q. exfalso. specialize (HG 0%nat ltac:(lia)). lra.
  - rewrite app_length. rewrite !app_nth2 by lia. replace (length l + length B - 1 - length l)%nat with (length B - 1)%nat by lia.
    rewrite <- L. replace (length l + length B - 1 - length l)%nat with (length B - 1)%nat by lia. exact P2.
  - intros i Hi [A C]. rewrite app_length in Hi. destruct (Nat.lt_ge_cases i (length l)) as [K|K].
    + exfalso. specialize (HG (S i) ltac:(lia)). lra.
    + rewrite !app_nth2 in * by lia. rewrite <- L in *. replace (S i - length l)%nat with (S (i - length l)) in * by lia.
      apply P3; [lia|lra].
Qed.

(** Lift and drag of the extrapolated polar at an angle outside the data. *)
Lemma before_incr p n : wf_polar p -> (2 <= n)%nat -> 0 < final (p_alpha p) < 90 -> -90 < first (p_alpha p) <= - final (p_alpha p) ->
  increasing (map degrees (before p n)) /\ final (map degrees (before p n)) = first (p_alpha p).
Proof.
  intros W Hn Ha Hb. split.
  2: { destruct (angles_duplicate p n Hn (proj2 Hb)) as (l & ->). apply final_app. discriminate. }
  apply incr_map; [apply degrees_mono|]. set (h := radians (final (p_alpha p))). set (lo := radians (first (p_alpha p))).
  assert (Hh : 0 < h < PI / 2).
  { split; [replace 0 with (radians 0) by (unfold radians; ring)|rewrite <- radians_90]; apply radians_mono; lra. }
  assert (Hl : - PI / 2 < lo).
  { replace (- PI / 2) with (radians (-90)) by (unfold radians; field). apply radians_mono; lra. }
  assert (Eb : rleb lo (- h) = true).
  { apply rleb_true. unfold h. rewrite <- radians_opp. apply radians_le. lra. }
  pose proof PI_RGT_0 as P. unfold before.
  assert (B7 : forall x, In x (seg7 p n) -> - PI <= x <= - PI + h) by (intros x; apply linspace_in; [exact Hn|unfold h in *; lra]).
  assert (B6 : forall x, In x (seg6 p n) -> - PI + h < x <= - PI / 2) by (intros x; apply tlin_in; [exact Hn|unfold h in *; lra]).
  assert (E4 : seg4 p n = []) by (unfold seg4; fold h lo; rewrite Eb; reflexivity).
  assert (E5 : seg5 p n = tl (linspace (- PI / 2) lo n)) by (unfold seg5; fold h lo; rewrite Eb; reflexivity).
  assert (B5 : forall x, In x (seg5 p n) -> - PI / 2 < x <= lo) by (intros x; rewrite E5; apply tlin_in; [exact Hn|lra]).
  rewrite E4, app_nil_r.
  apply incr_app; [apply linspace_incr; [exact Hn|fold h; lra]| |].
  - apply incr_app; [apply tl_incr, linspace_incr; [exact Hn|fold h; lra]| |].
    + rewrite E5. apply tl_incr, linspace_incr; [exact Hn|lra].
    + intros x y Hx Hy. apply B6 in Hx. apply B5 in Hy. lra.
  - intros x y Hx Hy. apply B7 in Hx. apply in_app_or in Hy. destruct Hy as [Hy|Hy]; [apply B6 in Hy|apply B5 in Hy]; lra.
Qed.

Lemma after_incr p n : wf_polar p -> (2 <= n)%nat -> 0 < final (p_alpha p) < 90 ->
  increasing (p_alpha p ++ map degrees (after p n)).
Proof.
  intros W Hn Ha. set (h := radians (final (p_alpha p))).
  assert (Hh : 0 < h < PI / 2).
  { split; [replace 0 with (radians 0) by (unfold radians; ring)|rewrite <- radians_90]; apply radians_mono; lra. }
  pose proof PI_RGT_0 as P.
  assert (B1 : forall x, In x (seg1 p n) -> h < x <= PI / 2) by (intros x; apply tlin_in; [exact Hn|unfold h in *; lra]).
  assert (B2 : forall x, In x (seg2 p n) -> PI / 2 < x <= PI - h) by (intros x; apply tlin_in; [exact Hn|unfold h in *; lra]).
  assert (B3 : forall x, In x (seg3 p n) -> PI - h < x <= PI) by (intros x; apply tlin_in; [exact Hn|unfold h in *; lra]).
  apply incr_app; [apply W| |].
  - apply incr_map; [apply degrees_mono|]. unfold after.
    apply incr_app; [apply tl_incr, linspace_incr; [exact Hn|fold h; lra]| |].
    + apply incr_app; [apply tl_incr, linspace_incr; [exact Hn|fold h; lra]|apply tl_incr, linspace_incr; [exact Hn|fold h; lra]|].
      intros x y Hx Hy. apply B2 in Hx. apply B3 in Hy. lra.
    + intros x y Hx Hy. apply B1 in Hx. apply in_app_or in Hy. destruct Hy as [Hy|Hy]; [apply B2 in Hy|apply B3 in Hy]; lra.
  - intros x y Hx Hy. apply in_first_final in Hx; [|apply W]. apply in_map_iff in Hy. destruct Hy as (a & <- & Hy).
    assert (h < a).
    { unfold after in Hy. apply in_app_or in Hy. destruct Hy as [Hy|Hy]; [apply B1 in Hy; lra|].
      apply in_app_or in Hy. destruct Hy as [Hy|Hy]; [apply B2 in Hy|apply B3 in Hy]; lra. }
    apply degrees_mono in H. unfold h in H. rewrite degrees_radians in H. lra.
Qed.

Lemma ext_wf p cdmax AR cdmin n F1 F2 : extendable p -> (2 <= n)%nat ->
  0 < final (p_alpha p) < 90 -> - final (p_alpha p) < first (p_alpha p) ->
  wf_polar (ext_polar p cdmax AR cdmin n F1 F2).
Proof.
  intros X Hn H1 H2. pose proof X as ((N & I & L1 & L2 & L3) & _). unfold wf_polar. cbn [p_alpha p_cl p_cd p_cm ext_polar].
  unfold ext_deg. split; [|split; [|split; [|split]]].
  - intros E. apply app_eq_nil in E. destruct E as [_ E]. apply app_eq_nil in E. tauto.
  - apply angles_increasing; try assumption. apply X.
  - rewrite !app_length, !map_length, cl_before_length, cl_after_length. lia.
  - rewrite !app_length, !map_length, cd_before_length, cd_after_length. lia.
  - apply map_length.
Qed.

Lemma ext_value p cdmax AR cdmin n F1 F2 k t : extendable p -> (2 <= n)%nat ->
  0 < final (p_alpha p) < 90 -> -90 < first (p_alpha p) -> k = CL \/ k = CD ->
  t < first (p_alpha p) \/ final (p_alpha p) < t ->
  let b := ext_polar p cdmax AR cdmin n F1 F2 in value k b t (ival k b t).
Proof.
  intros X Hn Ha Hb Hk Ht b.
  destruct (Rlt_le_dec (- final (p_alpha p)) (first (p_alpha p))) as [Q|Q].
  { apply value_ival, ext_wf; assumption. }
  pose proof X as (W & _). pose proof W as (N & I & Lc & Ld & _).
  destruct (before_incr p n W Hn Ha (conj Hb Q)) as (IB & FB). pose proof (after_incr p n W Hn Ha) as IA.
  pose proof (ends p X) as Hle.
  assert (Hcol : exists c1 c2, col k b = c1 ++ c2 /\ length (map degrees (before p n)) = length c1 /\
      length (p_alpha p ++ map degrees (after p n)) = length c2).
  { destruct Hk as [-> | ->]; unfold b; cbn [col p_cl p_cd ext_polar]; eexists _, _; split; [reflexivity| |reflexivity|];
      rewrite ?app_length, ?map_length, ?cl_before_length, ?cd_before_length, ?cl_after_length, ?cd_after_length; lia. }
  destruct Hcol as (c1 & c2 & E & L1 & L2). unfold value, ival. rewrite E.
  change (p_alpha b) with (map degrees (before p n) ++ (p_alpha p ++ map degrees (after p n))).
  assert (NB : map degrees (before p n) <> []) by (apply before_ne; assumption).
  assert (NA : p_alpha p ++ map degrees (after p n) <> []) by (intros Z; apply app_eq_nil in Z; tauto).
  assert (FA : first (p_alpha p ++ map degrees (after p n)) = first (p_alpha p)) by (apply first_app; exact N).
  destruct Ht as [Ht|Ht].
  - rewrite interp_left; [|exact L1|].
    + apply polygon_left; try assumption.
      * rewrite FB. exact Ht.
      * intros q Hq. rewrite FB, <- FA. apply in_first_final; assumption.
      * apply interp_polygon; assumption.
    + exists (final (map degrees (before p n))). split; [apply final_in; exact NB|rewrite FB; exact Ht].
  - assert (G : forall q, In q (map degrees (before p n)) -> q <= first (p_alpha p ++ map degrees (after p n))).
    { intros q Hq. rewrite FA, <- FB. apply in_first_final; assumption. }
    rewrite interp_right; try assumption.
    + apply polygon_right; try assumption; [rewrite FA; lra|]. apply interp_polygon; assumption.
    + apply Forall_forall. intros q Hq. apply G in Hq. rewrite FA in Hq. lra.
    + rewrite FA. lra.
Qed.

Lemma moment_law p cdmax AR cdmin n : extendable p -> moment_regular p -> some_moment p -> 0 <= cdmin -> (2 <= n)%nat ->
  0 < final (p_alpha p) < 90 -> -90 < first (p_alpha p) ->
  exists b m0 v, extrapolate p cdmax AR cdmin n = Ok b /\ zero_lift_moment p m0 /\
    (forall t, multiple_of_ten t -> -180 <= t <= 180 -> node_moment p b m0 t (v t)) /\
    forall i, (i < length (p_alpha b))%nat ->
      let x := nth i (p_alpha b) 0 in
      let y := nth i (p_cm b) 0 in
      (forall t, multiple_of_ten t -> t <= x < t + 10 ->
         final (p_alpha p) <= t /\ t + 10 <= 180 \/ -180 <= t /\ t + 10 <= first (p_alpha p) ->
         on_line t (v t) (t + 10) (v (t + 10)) x y) /\
      (x = 180 -> y = v 180) /\
      (forall c, multiple_of_ten c -> final (p_alpha p) < c < final (p_alpha p) + 10 -> final (p_alpha p) <= x < c ->
         on_line (final (p_alpha p)) (final (p_cm p)) c (v c) x y) /\
      (forall c, multiple_of_ten c -> first (p_alpha p) - 10 < c < first (p_alpha p) -> c <= x < first (p_alpha p) ->
         on_line c (v c) (first (p_alpha p)) (first (p_cm p)) x y).
Proof.
  intros X R S Hm Hn Ha Hb.
  destruct (extrapolate_values p cdmax AR cdmin n X S Hm) as (m0 & F1 & F2 & Em & E & E1 & E2).
  set (b := ext_polar p cdmax AR cdmin n F1 F2) in *. set (v := node p m0 (ival CL b) (ival CD b)) in *.
  pose proof (ends p X) as Hle.
  exists b, m0, v. split; [exact E|]. split; [apply zero_lift; [apply X|exact R|exact Em]|]. split.
  - intros t Ht Hr. split.
    + intros Q. apply node_inside. destruct Q as [->| ->]; lra.
    + intros Q. exists (ival CL b t), (ival CD b t).
      split; [apply ext_value; try assumption; left; reflexivity|]. split; [apply ext_value; try assumption; right; reflexivity|].
      apply node_outside; try assumption. lra.
  - intros i Hi x y.
    assert (Ey : y = V p v x).
    { unfold y, x, V. unfold b at 1. cbn [p_cm ext_polar]. rewrite (nth_map_lt _ _ _ 0) by exact Hi. rewrite E1, E2. reflexivity. }
    split; [|split; [|split]].
    + intros t Ht Hx [[A B]|[A B]]; apply on_seg; try lra; rewrite Ey; [apply above_seg|apply below_seg]; assumption.
    + intros Hx. rewrite Ey, Hx. apply above_end, X.
    + intros c Hc Hcr Hx. apply on_seg; [lra|]. rewrite Ey. apply above_gap; try assumption; lra.
    + intros c Hc Hcr Hx. apply on_seg; [lra|]. rewrite Ey. apply below_gap; try assumption; lra.
Qed.

Lemma interp_all_zero x xp : forall fp, Forall (fun c => c = 0) fp -> interp x xp fp = 0.
Proof.
  assert (G : forall xs fp x0, Forall (fun c => c = 0) fp -> interp_from x x0 0 xs fp = 0).
  { induction xs as [|x1 xs IH]; intros fp x0 H; [reflexivity|]. destruct fp as [|f fp]; [reflexivity|].
    inversion H as [|? ? A B]; subst. cbn [interp_from]. destruct (rltb x x1); [|apply IH, B].
    unfold seg. destruct (reqb x0 x); [reflexivity|]. unfold Rdiv. ring. }
  intros fp H. destruct xp as [|x0 xs]; [reflexivity|]. destruct fp as [|f fp]; [reflexivity|].
  inversion H as [|? ? A B]; subst. cbn [interp]. destruct (rltb x x0); [reflexivity|apply G, B].
Qed.

Lemma no_moment p cdmax AR cdmin n b : extendable p -> Forall (fun c => c = 0) (p_cm p) -> 0 <= cdmin ->
  extrapolate p cdmax AR cdmin n = Ok b -> Forall (fun c => c = 0) (p_cm b).
Proof.
  intros X Z Hm E. pose proof X as (W & Hlo & Hhi & _). rewrite extrapolate_eq in E by assumption. cbv zeta in E.
  unfold cm_extrapolated in E. cbv zeta in E.
  assert (Ex : existsb (fun c => negb (reqb c 0)) (p_cm p) = false).
  { apply not_true_is_false. intros Q. apply existsb_exists in Q. destruct Q as (c & I & Q). rewrite Forall_forall in Z.
    rewrite (Z c I) in Q. apply negb_true_iff in Q. apply reqb_false in Q. congruence. }
  rewrite Ex in E. cbn [bind] in E. rewrite np_interp_ok in E.
  - cbn [bind] in E. apply ok_inj in E. rewrite <- E. cbn [p_cm]. apply Forall_forall. intros c Hc.
    apply in_map_iff in Hc. destruct Hc as (x & <- & _). apply interp_all_zero. apply Forall_app. split; [|apply Forall_app; split].
    + apply Forall_forall. intros y Hy. apply in_map_iff in Hy. destruct Hy as (q & <- & _). reflexivity.
    + exact Z.
    + apply Forall_forall. intros y Hy. apply in_map_iff in Hy. destruct Hy as (q & <- & _). reflexivity.
  - intros Q. apply app_eq_nil in Q. destruct Q as [_ Q]. apply app_eq_nil in Q. destruct W. tauto.
  - rewrite !app_length, !map_length. destruct W as (_ & _ & _ & _ & ->). reflexivity.
Qed.
