(** Lemmas about the extrapolated moment coefficient. *)
From Coq Require Import Reals List Bool ZArith Lra Lia Sorted.
From Verif Require Import Prelim Interp Polar PolarExt InterpSpec InterpProofs PolarSpec PolarProofs PolarExtProofs.
Import ListNotations.
Open Scope R_scope.

(** * Integer parts *)
Lemma int_bounds x : IZR (Int_part x) <= x < IZR (Int_part x) + 1.
Proof. pose proof (base_Int_part x). lra. Qed.

Lemma int_IZR z : Int_part (IZR z) = z.
Proof.
  pose proof (int_bounds (IZR z)) as [A B]. apply le_IZR in A. rewrite <- plus_IZR in B. apply lt_IZR in B. lia.
Qed.

Lemma trunc_IZR z : trunc (IZR z) = z.
Proof.
  unfold trunc. destruct (rleb 0 (IZR z)) eqn:E; [apply int_IZR|]. rewrite <- opp_IZR, int_IZR. lia.
Qed.

(** The multiples of ten below and above. *)
Definition ten_below (x : R) : R := rfloor (x / 10) * 10.
Definition ten_above (x : R) : R := rceil (x / 10) * 10.

Lemma below_bounds x : ten_below x <= x < ten_below x + 10.
Proof. unfold ten_below, rfloor. pose proof (int_bounds (x / 10)). lra. Qed.
Lemma above_bounds x : ten_above x - 10 < x <= ten_above x.
Proof.
  unfold ten_above, rceil, rfloor. replace (- (x / 10)) with ((- x) / 10) by field. pose proof (int_bounds ((- x) / 10)). lra.
Qed.

Lemma above_mult z : ten_above (10 * IZR z) = 10 * IZR z.
Proof.
  unfold ten_above, rceil, rfloor. replace (- (10 * IZR z / 10)) with (IZR (- z)) by (rewrite opp_IZR; field).
  rewrite int_IZR, opp_IZR. ring.
Qed.

Lemma above_strict x : (forall z, x <> 10 * IZR z) -> x < ten_above x.
Proof.
  intros H. pose proof (above_bounds x). destruct (Req_dec x (ten_above x)) as [E|E]; [|lra]. exfalso.
  unfold ten_above, rceil, rfloor in E. apply (H (- Int_part (- (x / 10)))%Z). rewrite opp_IZR. lra.
Qed.

Lemma below_strict x : (forall z, x <> 10 * IZR z) -> ten_below x < x.
Proof.
  intros H. pose proof (below_bounds x). destruct (Req_dec x (ten_below x)) as [E|E]; [|lra]. exfalso.
  unfold ten_below, rfloor in E. apply (H (Int_part (x / 10))). lra.
Qed.

Lemma alpha1_eq a0 : -90 <= a0 -> exists n, (10 <= n)%nat /\ cm_alpha1 a0 = linspace (-180) (ten_below a0) n /\
  10 * INR (n - 1) = ten_below a0 + 180.
Proof.
  intros H. unfold cm_alpha1. fold (ten_below a0). cbv zeta.
  set (z := Int_part (a0 / 10)). assert (Hz : (-9 <= z)%Z).
  { pose proof (int_bounds (a0 / 10)) as [_ B]. fold z in B. assert (-10 < IZR z) as C by lra. apply lt_IZR in C. lia. }
  exists (Z.abs_nat (- (z + 19))%Z). split; [lia|]. split.
  2: { rewrite INR_IZR_INZ. replace (Z.of_nat (Z.abs_nat (- (z + 19)) - 1)) with (z + 18)%Z by lia.
       rewrite plus_IZR. unfold ten_below, rfloor. fold z. ring. }
  f_equal. f_equal.
  replace ((- 180 - ten_below a0) / 10 - 1) with (IZR (- (z + 19))); [apply trunc_IZR|].
  unfold ten_below, rfloor. fold z. rewrite opp_IZR, plus_IZR. field.
Qed.

Lemma alpha2_eq an : an <= 90 -> exists n, (10 <= n)%nat /\ cm_alpha2 an = linspace (ten_above an) 180 n.
Proof.
  intros H. unfold cm_alpha2. fold (ten_above an). cbv zeta.
  set (z := (- Int_part (- (an / 10)))%Z). assert (Hz : (z <= 9)%Z).
  { pose proof (above_bounds an) as [B _]. assert (E : ten_above an = 10 * IZR z).
    { unfold ten_above, rceil, rfloor, z. rewrite opp_IZR. ring. }
    rewrite E in B. assert (IZR z < 10) as C by lra. apply lt_IZR in C. lia. }
  exists (Z.to_nat (19 - z)). split; [lia|]. f_equal. f_equal.
  replace ((180 - ten_above an) / 10 + 1) with (IZR (19 - z)); [apply trunc_IZR|].
  unfold ten_above, rceil, rfloor, z. rewrite minus_IZR, opp_IZR. field.
Qed.

(** * Interpolation at and after a node that follows a prefix of smaller nodes *)
Lemma from_node L1 : forall F1 x x0 f0 f xs fs, length L1 = length F1 -> Forall (fun y => y <= x) L1 ->
  (xs = [] \/ x < nth 0 xs 0) -> x0 <= x -> length xs = length fs ->
  interp_from x x0 f0 (L1 ++ x :: xs) (F1 ++ f :: fs) = f.
Proof.
  induction L1 as [|y L1 IH]; intros F1 x x0 f0 f xs fs HL HF Hx H0 Hl.
  - destruct F1; [|discriminate]. cbn [app interp_from].
    replace (rltb x x) with false by (symmetry; apply rltb_false; lra).
    destruct xs as [|x1 xs]; [destruct fs; [reflexivity|discriminate]|]. destruct fs as [|f1 fs]; [discriminate|].
    cbn [interp_from]. destruct Hx as [Hx|Hx]; [discriminate|]. cbn [nth] in Hx.
    replace (rltb x x1) with true by (symmetry; apply rltb_true; exact Hx). unfold seg.
    replace (reqb x x) with true by (symmetry; apply reqb_true; reflexivity). reflexivity.
  - destruct F1 as [|g F1]; [discriminate|]. inversion HF as [|? ? H1 H2]; subst. cbn [app interp_from].
    replace (rltb x y) with false by (symmetry; apply rltb_false; exact H1). apply IH; auto.
Qed.

Lemma interp_at_node L1 F1 x f xs fs : length L1 = length F1 -> Forall (fun y => y <= x) L1 ->
  (xs = [] \/ x < nth 0 xs 0) -> length xs = length fs ->
  interp x (L1 ++ x :: xs) (F1 ++ f :: fs) = f.
Proof.
  intros HL HF Hx Hl. destruct L1 as [|y L1].
  - destruct F1; [|discriminate]. cbn [app interp].
    replace (rltb x x) with false by (symmetry; apply rltb_false; lra).
    destruct xs as [|x1 xs]; [destruct fs; [reflexivity|discriminate]|]. destruct fs as [|f1 fs]; [discriminate|].
    cbn [interp_from]. destruct Hx as [Hx|Hx]; [discriminate|]. cbn [nth] in Hx.
    replace (rltb x x1) with true by (symmetry; apply rltb_true; exact Hx). unfold seg.
    replace (reqb x x) with true by (symmetry; apply reqb_true; reflexivity). reflexivity.
  - destruct F1 as [|g F1]; [discriminate|]. inversion HF as [|? ? H1 H2]; subst. cbn [app interp].
    replace (rltb x y) with false by (symmetry; apply rltb_false; exact H1). apply from_node; auto.
Qed.

Lemma from_seg L1 : forall F1 x x0 f0 u fu v fv xs fs, length L1 = length F1 -> Forall (fun y => y <= x) L1 ->
  u <= x < v -> x0 <= x ->
  interp_from x x0 f0 (L1 ++ u :: v :: xs) (F1 ++ fu :: fv :: fs) = seg u fu v fv x.
Proof.
  induction L1 as [|y L1 IH]; intros F1 x x0 f0 u fu v fv xs fs HL HF Hx H0.
  - destruct F1; [|discriminate]. cbn [app interp_from].
    replace (rltb x u) with false by (symmetry; apply rltb_false; lra).
    replace (rltb x v) with true by (symmetry; apply rltb_true; lra). reflexivity.
  - destruct F1 as [|g F1]; [discriminate|]. inversion HF as [|? ? H1 H2]; subst. cbn [app interp_from].
    replace (rltb x y) with false by (symmetry; apply rltb_false; exact H1). apply IH; auto.
Qed.

Lemma interp_on_seg L1 F1 x u fu v fv xs fs : length L1 = length F1 -> Forall (fun y => y <= x) L1 ->
  u <= x < v ->
  interp x (L1 ++ u :: v :: xs) (F1 ++ fu :: fv :: fs) = seg u fu v fv x.
Proof.
  intros HL HF Hx. destruct L1 as [|y L1].
  - destruct F1; [|discriminate]. cbn [app interp].
    replace (rltb x u) with false by (symmetry; apply rltb_false; lra). cbn [interp_from].
    replace (rltb x v) with true by (symmetry; apply rltb_true; lra). reflexivity.
  - destruct F1 as [|g F1]; [discriminate|]. inversion HF as [|? ? H1 H2]; subst. cbn [app interp].
    replace (rltb x y) with false by (symmetry; apply rltb_false; exact H1). apply from_seg; auto.
Qed.

(** * The moment table *)
Lemma cm0_ok p : wf_polar p -> (2 <= length (p_alpha p))%nat -> exists c, cm0 p = Ok c.
Proof.
  intros (_ & _ & L1 & _ & L3) H. unfold cm0. destruct (cm0_scan _ _ _) as [c|]; [exists c; reflexivity|].
  destruct (p_cl p) as [|c0 [|c1 cl]]; simpl in L1; try lia.
  destruct (p_cm p) as [|m0 [|m1 cm]]; simpl in L3; try lia. eexists. reflexivity.
Qed.

Lemma map2_app {A B C} (f : A -> B -> C) a a' b b' : length a = length b ->
  map2 f (a ++ a') (b ++ b') = map2 f a b ++ map2 f a' b'.
Proof.
  intros H. unfold map2. rewrite <- map_app. f_equal. revert b H.
  induction a as [|x a IH]; intros [|y b] H; try discriminate; [reflexivity|]. simpl. f_equal. apply IH. simpl in H. lia.
Qed.

Lemma map2_length {A B C} (f : A -> B -> C) a b : length (map2 f a b) = Nat.min (length a) (length b).
Proof. unfold map2. rewrite map_length. apply combine_length. Qed.

Lemma map2_fst {A B} (f : A -> B -> A) a : forall b, length a = length b ->
  (forall x y, In x a -> In y b -> f x y = x) -> map2 f a b = a.
Proof.
  unfold map2. induction a as [|x a IH]; intros [|y b] H Hf; try discriminate; [reflexivity|]. simpl. f_equal.
  - apply Hf; left; reflexivity.
  - apply IH; [simpl in H; lia|]. intros u v Hu Hv. apply Hf; right; assumption.
Qed.

Lemma combine_app {A B} (a a' : list A) (b b' : list B) : length a = length b ->
  combine (a ++ a') (b ++ b') = combine a b ++ combine a' b'.
Proof.
  revert b. induction a as [|x a IH]; intros [|y b] H; try discriminate; [reflexivity|]. simpl. f_equal. apply IH. simpl in H. lia.
Qed.

Lemma combine_map_self {A B} (f : A -> B) l : combine l (map f l) = map (fun x => (x, f x)) l.
Proof. induction l; [reflexivity|]. simpl. f_equal. assumption. Qed.

Lemma cm_table p ah clh cdh cmh deg cl cd : wf_polar p ->
  (Forall (fun c => c = 0) (p_cm p) \/ (2 <= length (p_alpha p))%nat) ->
  deg <> [] -> length deg = length cl -> length deg = length cd ->
  let L1 := cm_alpha1 (first (p_alpha p)) in
  let L2 := cm_alpha2 (final (p_alpha p)) in
  exists F1 F2, length F1 = length L1 /\ length F2 = length L2 /\
    (first L2 = final (p_alpha p) -> L2 <> [] -> first F2 = 0) /\
    (final L1 = first (p_alpha p) -> L1 <> [] -> final F1 = 0) /\
    cm_extrapolated p ah clh cdh cmh deg cl cd =
    Ok (map (fun x => interp x (L1 ++ p_alpha p ++ L2) (F1 ++ p_cm p ++ F2)) deg).
Proof.
  intros W Hc Hd Lcl Lcd L1 L2. unfold cm_extrapolated. rewrite !last_final.
  change (nth 0 (p_alpha p) 0) with (first (p_alpha p)). cbv zeta. fold L1 L2.
  assert (Lcm : length (p_alpha p) = length (p_cm p)) by (symmetry; apply W).
  assert (Nz : forall l : list R, first (map (fun _ => 0) l) = 0) by (intros [|]; reflexivity).
  assert (Nz2 : forall l : list R, final (map (fun _ => 0) l) = 0).
  { intros l. unfold final. destruct (Nat.lt_ge_cases (length (map (fun _ : R => 0) l) - 1) (length l)) as [H|H].
    - rewrite (nth_map_lt _ _ _ 0) by exact H. reflexivity.
    - apply nth_overflow. rewrite map_length in *. exact H. }
  assert (Ne : L1 ++ p_alpha p ++ L2 <> []).
  { intros E. apply app_eq_nil in E. destruct E as [_ E]. apply app_eq_nil in E. destruct W. tauto. }
  destruct (existsb (fun c => negb (reqb c 0)) (p_cm p)) eqn:Ex.
  - assert (H2 : (2 <= length (p_alpha p))%nat).
    { destruct Hc as [Hc|Hc]; [|exact Hc]. exfalso. apply existsb_exists in Ex. destruct Ex as (c & I & E).
      rewrite Forall_forall in Hc. rewrite (Hc c I) in E. unfold reqb in E. destruct (Req_EM_T 0 0); [discriminate|congruence]. }
    destruct (cm0_ok p W H2) as [c0 Ec]. rewrite Ec. cbn [bind].
    rewrite (np_interp_ok _ deg cl) by assumption. cbn [bind]. rewrite (np_interp_ok _ deg cd) by assumption. cbn [bind].
    set (cc := cmCoef ah clh cdh cmh c0).
    set (g := fun (x : R) (acld : R * (R * R)) => match getCM cc c0 (fst acld) (fst (snd acld)) (snd (snd acld))
      (first (p_alpha p)) (final (p_alpha p)) with Some c => c | None => x end).
    set (hcl := fun x => interp x deg cl). set (hcd := fun x => interp x deg cd).
    set (tab := fun l : list R => combine l (combine (map hcl l) (map hcd l))).
    assert (Ltab : forall l, length (tab l) = length l).
    { intros l. unfold tab. rewrite !combine_length, !map_length. lia. }
    assert (Etab : combine (L1 ++ p_alpha p ++ L2) (combine (map hcl (L1 ++ p_alpha p ++ L2)) (map hcd (L1 ++ p_alpha p ++ L2))) =
       tab L1 ++ tab (p_alpha p) ++ tab L2).
    { unfold tab. rewrite !map_app. rewrite !combine_app by (rewrite ?combine_length, ?map_length; lia). reflexivity. }
    rewrite Etab. clear Etab.
    exists (map2 g (map (fun _ => 0) L1) (tab L1)), (map2 g (map (fun _ => 0) L2) (tab L2)).
    assert (GN : forall x a b c, first (p_alpha p) <= a <= final (p_alpha p) -> g x (a, (b, c)) = x).
    { intros x a b c Ha. unfold g, getCM. cbn [fst snd].
      replace (rleb (first (p_alpha p)) a) with true by (symmetry; apply rleb_true; tauto).
      replace (rleb a (final (p_alpha p))) with true by (symmetry; apply rleb_true; tauto). reflexivity. }
    assert (FL : first (p_alpha p) <= final (p_alpha p)).
    { apply (in_first_final (p_alpha p) (first (p_alpha p))); [apply W|apply first_in, W]. }
    split; [rewrite map2_length, map_length, Ltab; lia|]. split; [rewrite map2_length, map_length, Ltab; lia|].
    split; [|split].
    + intros E N. destruct L2 as [|y L]; [congruence|]. unfold first in E at 1. cbn [nth] in E.
      unfold tab, map2. cbn [map combine]. unfold first. cbn [nth fst snd]. rewrite GN; [reflexivity|rewrite E; lra].
    + intros E N. destruct (exists_last N) as (u & y & Ey). rewrite Ey in *. rewrite final_app in E by discriminate.
      unfold final in E at 1. cbn in E. unfold tab. rewrite !map_app. cbn [map].
      rewrite !combine_app by (rewrite ?combine_length, ?map_length; lia). cbn [combine].
      rewrite map2_app by (rewrite !combine_length, !map_length; lia). rewrite final_app by discriminate.
      unfold map2, final. cbn [combine map length nth fst snd]. cbn. rewrite GN; [reflexivity|rewrite E; lra].
    + rewrite map2_app by (rewrite map_length, Ltab; reflexivity).
      rewrite map2_app by (rewrite Ltab; symmetry; exact Lcm).
      rewrite (map2_fst g (p_cm p)); [|rewrite Ltab; symmetry; exact Lcm|].
      2: { intros x y _ Hy. unfold tab in Hy. destruct y as (a, (b, c)). apply in_combine_l in Hy.
           apply GN. apply in_first_final; [apply W|exact Hy]. }
      apply np_interp_ok; [exact Ne|]. rewrite !app_length, !map2_length, !map_length, !Ltab. lia.
  - cbn [bind]. exists (map (fun _ => 0) L1), (map (fun _ => 0) L2).
    split; [apply map_length|]. split; [apply map_length|]. split; [intros; apply Nz|]. split; [intros; apply Nz2|].
    apply np_interp_ok; [exact Ne|]. rewrite !app_length, !map_length. lia.
Qed.

(** * The whole extrapolated polar *)
Lemma cl_before_length p n cm : length (cl_before p n cm) = length (before p n).
Proof. unfold cl_before, before. cbv zeta. rewrite !app_length, !map_length. reflexivity. Qed.
Lemma cd_before_length p n cm : length (cd_before p n cm) = length (before p n).
Proof. unfold cd_before, before. cbv zeta. rewrite !app_length, !map_length. reflexivity. Qed.
Lemma cl_after_length p n cm : length (cl_after p n cm) = length (after p n).
Proof. unfold cl_after, after. cbv zeta. rewrite !app_length, !map_length. reflexivity. Qed.
Lemma cd_after_length p n cm : length (cd_after p n cm) = length (after p n).
Proof. unfold cd_after, after. rewrite !app_length, !map_length. reflexivity. Qed.

Definition ext_deg (p : polar) (n : nat) : list R := map degrees (before p n) ++ p_alpha p ++ map degrees (after p n).
Definition ext_polar (p : polar) (cdmax : R) (AR : option R) (cdmin : R) (n : nat) (F1 F2 : list R) : polar :=
  let cm := cdm p cdmax AR in
  mkPolar (p_Re p) (ext_deg p n)
    (cl_before p n cm ++ p_cl p ++ cl_after p n cm)
    (map (fun c => Rmax c cdmin) (cd_before p n cm) ++ map (fun c => Rmax c cdmin) (p_cd p) ++
     map (fun c => Rmax c cdmin) (cd_after p n cm))
    (map (fun x => interp x (cm_alpha1 (first (p_alpha p)) ++ p_alpha p ++ cm_alpha2 (final (p_alpha p)))
                            (F1 ++ p_cm p ++ F2)) (ext_deg p n)).

Lemma extrapolate_full p cdmax AR cdmin n : extendable p -> 0 <= cdmin -> exists F1 F2,
  extrapolate p cdmax AR cdmin n = Ok (ext_polar p cdmax AR cdmin n F1 F2) /\
  length F1 = length (cm_alpha1 (first (p_alpha p))) /\ length F2 = length (cm_alpha2 (final (p_alpha p))) /\
  (first (cm_alpha2 (final (p_alpha p))) = final (p_alpha p) -> cm_alpha2 (final (p_alpha p)) <> [] -> first F2 = 0) /\
  (final (cm_alpha1 (first (p_alpha p))) = first (p_alpha p) -> cm_alpha1 (first (p_alpha p)) <> [] -> final F1 = 0).
Proof.
  intros (W & Hlo & Hhi & Hc) Hmin. rewrite extrapolate_eq by assumption. cbv zeta.
  destruct (cm_table p (radians (final (p_alpha p))) (final (p_cl p)) (final (p_cd p)) (final (p_cm p))
    (ext_deg p n) (cl_before p n (cdm p cdmax AR) ++ p_cl p ++ cl_after p n (cdm p cdmax AR))
    (map (fun c => Rmax c cdmin) (cd_before p n (cdm p cdmax AR)) ++ map (fun c => Rmax c cdmin) (p_cd p) ++
     map (fun c => Rmax c cdmin) (cd_after p n (cdm p cdmax AR))) W Hc) as (F1 & F2 & L1 & L2 & Z2 & Z1 & E).
  - unfold ext_deg. intros E. apply app_eq_nil in E. destruct E as [_ E]. apply app_eq_nil in E. destruct W. tauto.
  - unfold ext_deg. rewrite !app_length, !map_length, cl_before_length, cl_after_length. destruct W as (_ & _ & -> & _). reflexivity.
  - unfold ext_deg. rewrite !app_length, !map_length, cd_before_length, cd_after_length. destruct W as (_ & _ & _ & -> & _). reflexivity.
  - exists F1, F2. unfold ext_deg in E at 1. rewrite E. cbn [bind]. split; [reflexivity|]. auto.
Qed.
