(** Accuracy of the fitted airfoil data. *)
From Coq Require Import Reals List Bool ZArith Permutation Lra Lia.
From Verif Require Import Prelim Num FlProofs Interp InterpSpec InterpProofs Polar PolarSpec PolarProofs AeroDyn AeroDynSpec AeroDynProofs StationProofs CCAirfoil CCAirfoilSpec CCAirfoilProofs CCUnsteadyProofs CCFitSpec.
Import ListNotations.
Open Scope R_scope.

Lemma total_S n f : total (S n) f = total n f + f n.
Proof.
  unfold total. rewrite seq_S, map_app, fold_right_app. cbn [map fold_right Nat.add].
  generalize (map f (seq 0 n)). induction l as [|x l IH]; cbn [fold_right]; [ring|rewrite IH; ring].
Qed.
Lemma total_ext n f g : (forall i, (i < n)%nat -> f i = g i) -> total n f = total n g.
Proof. induction n as [|n IH]; intros H; [reflexivity|]. rewrite !total_S, IH, H by (auto with arith). reflexivity. Qed.
Lemma total_nonneg n f : (forall i, (i < n)%nat -> 0 <= f i) -> 0 <= total n f.
Proof. induction n as [|n IH]; intros H; [unfold total; cbn; lra|]. rewrite total_S. specialize (IH ltac:(auto with arith)). specialize (H n ltac:(lia)). lra. Qed.
Lemma total_term n f k : (forall i, (i < n)%nat -> 0 <= f i) -> (k < n)%nat -> f k <= total n f.
Proof.
  induction n as [|n IH]; intros H L; [lia|]. rewrite total_S. assert (N := total_nonneg n f ltac:(intros; apply H; lia)).
  destruct (Nat.eq_dec k n) as [->|E]; [lra|]. specialize (IH ltac:(intros; apply H; lia) ltac:(lia)). specialize (H n ltac:(lia)). lra.
Qed.
Lemma total_plus n f g : total n (fun i => f i + g i) = total n f + total n g.
Proof. induction n as [|n IH]; [unfold total; cbn; ring|]. rewrite !total_S, IH. ring. Qed.
Lemma total_scale n f c : total n (fun i => c * f i) = c * total n f.
Proof. induction n as [|n IH]; [unfold total; cbn; ring|]. rewrite !total_S, IH. ring. Qed.

Lemma misfit_term x y z f i j : (i < length x)%nat -> (j < length y)%nat ->
  (z i j - f (nth i x 0) (nth j y 0)) ^ 2 <= misfit x y z f.
Proof.
  intros Hi Hj. unfold misfit.
  apply Rle_trans with (total (length y) (fun j => (z i j - f (nth i x 0) (nth j y 0)) ^ 2)).
  - apply (total_term _ (fun j => (z i j - f (nth i x 0) (nth j y 0)) ^ 2)); [intros; apply pow2_ge_0|exact Hj].
  - apply (total_term _ (fun i => total (length y) (fun j => (z i j - f (nth i x 0) (nth j y 0)) ^ 2))); [|exact Hi].
    intros. apply total_nonneg. intros. apply pow2_ge_0.
Qed.
Lemma near_sq b u v : 0 <= b -> (v - u) ^ 2 <= b ^ 2 -> near b u v.
Proof. intros B H. unfold near, Rabs. destruct (Rcase_abs _); nra. Qed.

(** What the constructor asks of the spline routine. *)
Lemma cc_init_calls rbs alpha Re cl cd cm af : cc_init rbs alpha Re cl cd cm = Ok af ->
  let x := map radians alpha in
  let y := if Nat.ltb (length Re) 2 then [10; 1000000000000000] else Re in
  let kx := Nat.min (length alpha - 1) 3 in let ky := Nat.min (length y - 1) 3 in
  let dup := fun M => if Nat.ltb (length Re) 2 then twice M else M in
  rbs x y (dup cl) kx ky (1 / 10) = Ok (cc_cl af) /\ rbs x y (dup cd) kx ky (1 / 1000) = Ok (cc_cd af) /\
  cc_use_cm af = Nat.ltb 0 (m_rows cm) /\
  ((0 < m_rows cm)%nat -> exists sp, cc_cm af = Some sp /\ rbs x y (dup cm) kx ky (1 / 10000) = Ok sp).
Proof.
  unfold cc_init. rewrite map_length. destruct (Nat.ltb (length alpha) 2) eqn:L; [discriminate|]. intros E.
  apply bind_ok in E. destruct E as (scl & Ecl & E). apply bind_ok in E. destruct E as (scd & Ecd & E).
  destruct (Nat.ltb 0 (m_rows cm)) eqn:M.
  - apply bind_ok in E. destruct E as (scm & Ecm & E). apply ok_inj in E. subst af. cbn [cc_use_cm cc_cl cc_cd cc_cm].
    refine (conj Ecl (conj Ecd (conj eq_refl _))). intros _. exists scm. split; [reflexivity|]. destruct (Nat.ltb (length Re) 2); exact Ecm.
  - apply ok_inj in E. subst af. cbn [cc_use_cm cc_cl cc_cd cc_cm].
    refine (conj Ecl (conj Ecd (conj eq_refl _))). apply Nat.ltb_ge in M. lia.
Qed.

Lemma fit_bound rbs x y M kx ky s sp b i j : smooths rbs -> rbs x y M kx ky s = Ok sp -> 0 <= b -> s * (1 + 1 / 1000) <= b ^ 2 ->
  (i < length x)%nat -> (j < length y)%nat -> near b (sp_ev sp (nth i x 0) (nth j y 0)) (m_at M i j).
Proof.
  intros S E B H Hi Hj. apply near_sq; [exact B|]. specialize (S _ _ _ _ _ _ _ E).
  assert (T := misfit_term x y (m_at M) (sp_ev sp) i j Hi Hj). lra.
Qed.

Lemma grid_close rbs alpha Re cl cd cm af i j : smooths rbs -> cc_init rbs alpha Re cl cd cm = Ok af ->
  (2 <= length Re)%nat -> (i < length alpha)%nat -> (j < length Re)%nat ->
  exists l d m, cc_evaluate af (nth i alpha 0 * PI / 180) (nth j Re 0) true = Ok (l, d, m) /\
    near cl_bound l (m_at cl i j) /\ near cd_bound d (m_at cd i j) /\
    ((0 < m_rows cm)%nat -> exists v, m = Some v /\ near cm_bound v (m_at cm i j)) /\
    (m_rows cm = 0%nat -> m = None).
Proof.
  intros S E L2 Hi Hj. destruct (cc_init_calls _ _ _ _ _ _ _ E) as (El & Ed & Eu & Em).
  replace (Nat.ltb (length Re) 2) with false in * by (symmetry; apply Nat.ltb_ge; exact L2).
  assert (Ha : nth i (map radians alpha) 0 = nth i alpha 0 * PI / 180) by apply nth_radians.
  assert (Hi' : (i < length (map radians alpha))%nat) by (rewrite map_length; exact Hi).
  assert (Bl := fit_bound _ _ _ _ _ _ _ _ cl_bound i j S El ltac:(unfold cl_bound; lra) ltac:(unfold cl_bound; lra) Hi' Hj).
  assert (Bd := fit_bound _ _ _ _ _ _ _ _ cd_bound i j S Ed ltac:(unfold cd_bound; lra) ltac:(unfold cd_bound; lra) Hi' Hj).
  rewrite Ha in Bl, Bd. unfold cc_evaluate. rewrite Eu.
  destruct (Nat.ltb 0 (m_rows cm)) eqn:M.
  - apply Nat.ltb_lt in M. destruct (Em M) as (sp & Ecm & Esp). rewrite Ecm. cbn [andb]. do 3 eexists. split; [reflexivity|].
    refine (conj Bl (conj Bd (conj _ _))); [|lia]. intros _. eexists. split; [reflexivity|].
    assert (Bm := fit_bound _ _ _ _ _ _ _ _ cm_bound i j S Esp ltac:(unfold cm_bound; lra) ltac:(unfold cm_bound; lra) Hi' Hj).
    rewrite Ha in Bm. exact Bm.
  - apply Nat.ltb_ge in M. cbn [andb]. do 3 eexists. split; [reflexivity|]. refine (conj Bl (conj Bd (conj _ _))); [lia|reflexivity].
Qed.

Lemma cc_init_accepts : forall rbs alpha Re cl cd cm, accepts rbs -> (2 <= length alpha)%nat -> increasing alpha -> increasing Re ->
  grid_shape alpha Re cl -> grid_shape alpha Re cd -> grid_shape alpha Re cm \/ m_rows cm = 0%nat ->
  exists af, cc_init rbs alpha Re cl cd cm = Ok af /\ cc_alpha af = map radians alpha /\
    (cc_use_cm af = true <-> (0 < m_rows cm)%nat) /\
    (forall a r b, exists l d m, cc_evaluate af a r b = Ok (l, d, m) /\ (m <> None <-> b = true /\ (0 < m_rows cm)%nat)).
Proof.
  intros rbs alpha Re cl cd cm Acc H2 Ia Ir (Rl & Cl) (Rd & Cd) Hm.
  set (Re' := if Nat.ltb (length Re) 2 then [10; 1000000000000000] else Re).
  assert (LR : (2 <= length Re')%nat) by (unfold Re'; destruct (Nat.ltb (length Re) 2) eqn:L; [cbn; lia|apply Nat.ltb_ge in L; exact L]).
  assert (IR : increasing Re').
  { unfold Re'. destruct (Nat.ltb (length Re) 2); [|exact Ir]. intros i j H. cbn [length] in H. destruct i as [|[|i]], j as [|[|j]]; try lia. cbn. lra. }
  assert (IA : increasing (map radians alpha)).
  { intros i j H. rewrite map_length in H. rewrite !nth_radians. specialize (Ia i j H). assert (P := PI_RGT_0). nra. }
  assert (K : forall M s, grid_shape alpha Re M -> 0 <= s ->
    exists sp, rbs (map radians alpha) Re' (if Nat.ltb (length Re) 2 then twice M else M)
      (Nat.min (length (map radians alpha) - 1) 3) (Nat.min (length Re' - 1) 3) s = Ok sp).
  { intros M s (RM & CM) Hs. apply Acc; rewrite ?map_length; try assumption; try lia.
    - destruct (Nat.ltb (length Re) 2); exact RM.
    - unfold Re'. destruct (Nat.ltb (length Re) 2) eqn:L; cbn [twice m_cols length]; rewrite CM; [apply Nat.ltb_lt in L|apply Nat.ltb_ge in L]; lia. }
  unfold cc_init. replace (Nat.ltb (length (map radians alpha)) 2) with false by (symmetry; apply Nat.ltb_ge; rewrite map_length; exact H2).
  fold Re'. destruct (K cl (1 / 10) (conj Rl Cl) ltac:(lra)) as (scl & El). rewrite El. cbn [bind].
  destruct (K cd (1 / 1000) (conj Rd Cd) ltac:(lra)) as (scd & Ed). rewrite Ed. cbn [bind].
  destruct (Nat.ltb 0 (m_rows cm)) eqn:M.
  - apply Nat.ltb_lt in M. destruct Hm as [Hm|Hm]; [|lia].
    destruct (K cm (1 / 10000) Hm ltac:(lra)) as (scm & Em). rewrite Em. cbn [bind].
    eexists. split; [reflexivity|]. cbn [cc_alpha cc_use_cm]. split; [reflexivity|]. split; [tauto|].
    intros a r b. unfold cc_evaluate. cbn [cc_use_cm cc_cm cc_cl cc_cd]. destruct b; cbn [andb]; do 3 eexists; (split; [reflexivity|]); split; intros X; try congruence; auto.
    destruct X; discriminate.
  - apply Nat.ltb_ge in M. eexists. split; [reflexivity|]. cbn [cc_alpha cc_use_cm]. split; [reflexivity|]. split; [split; [discriminate|lia]|].
    intros a r b. unfold cc_evaluate. cbn [cc_use_cm cc_cm cc_cl cc_cd andb]. do 3 eexists. split; [reflexivity|]. split; [congruence|intros (_ & X); lia].
Qed.

Lemma cc_init_single : forall rbs alpha Re cl cd cm af, flat_fit rbs -> (length Re < 2)%nat -> m_cols cl = 1%nat -> m_cols cd = 1%nat ->
  cc_init rbs alpha Re cl cd cm = Ok af ->
  (forall a r r', cc_evaluate af a r false = cc_evaluate af a r' false) /\
  (forall a r, exists dl dd, cc_derivatives af a r = (dl, 0, dd, 0)).
Proof.
  intros rbs alpha Re cl cd cm af F L C1 C2 E. apply cc_init_inv in E. destruct E as (_ & _ & O & (kx & ky & s & El) & (kx' & ky' & s' & Ed)).
  replace (Nat.ltb (length Re) 2) with true in * by (symmetry; apply Nat.ltb_lt; exact L).
  assert (Q : forall M, m_cols M = 1%nat -> forall i j j', (j < m_cols (twice M))%nat -> (j' < m_cols (twice M))%nat -> m_at (twice M) i j = m_at (twice M) i j').
  { intros M HM i j j' Hj Hj'. cbn [twice m_cols m_at] in *. rewrite HM in *. destruct j as [|[|j]], j' as [|[|j']]; try lia; reflexivity. }
  split.
  - intros a r r'. unfold cc_evaluate. rewrite andb_false_r.
    rewrite (F _ _ _ _ _ _ _ El (Q cl C1) a r r'), (F _ _ _ _ _ _ _ Ed (Q cd C2) a r r'). reflexivity.
  - intros a r. unfold cc_derivatives. rewrite O. cbn [fst snd]. eauto.
Qed.

(** One Reynolds number, or none. *)
Lemma single_close rbs alpha Re cl cd cm af i r : smooths rbs -> flat_fit rbs -> cc_init rbs alpha Re cl cd cm = Ok af ->
  (length Re < 2)%nat -> m_cols cl = 1%nat -> m_cols cd = 1%nat -> ((0 < m_rows cm)%nat -> m_cols cm = 1%nat) -> (i < length alpha)%nat ->
  exists l d m, cc_evaluate af (nth i alpha 0 * PI / 180) r true = Ok (l, d, m) /\
    near cl_bound l (m_at cl i 0) /\ near cd_bound d (m_at cd i 0) /\
    ((0 < m_rows cm)%nat -> exists v, m = Some v /\ near cm_bound v (m_at cm i 0)) /\
    (m_rows cm = 0%nat -> m = None).
Proof.
  intros S F E L2 Cl Cd Cm Hi. destruct (cc_init_calls _ _ _ _ _ _ _ E) as (El & Ed & Eu & Em).
  replace (Nat.ltb (length Re) 2) with true in * by (symmetry; apply Nat.ltb_lt; exact L2).
  assert (Ha : nth i (map radians alpha) 0 = nth i alpha 0 * PI / 180) by apply nth_radians.
  assert (Hi' : (i < length (map radians alpha))%nat) by (rewrite map_length; exact Hi).
  assert (Q : forall M, m_cols M = 1%nat -> forall i j j', (j < m_cols (twice M))%nat -> (j' < m_cols (twice M))%nat -> m_at (twice M) i j = m_at (twice M) i j').
  { intros M HM i' j j' Hj Hj'. cbn [twice m_cols m_at] in *. rewrite HM in *. destruct j as [|[|j]], j' as [|[|j']]; try lia; reflexivity. }
  assert (Z : forall M, m_cols M = 1%nat -> m_at (twice M) i 0 = m_at M i 0) by (intros M HM; cbn [twice m_at]; rewrite HM; reflexivity).
  assert (K : forall M kx ky s sp b, rbs (map radians alpha) [10; 1000000000000000] (twice M) kx ky s = Ok sp -> m_cols M = 1%nat ->
     0 <= b -> s * (1 + 1 / 1000) <= b ^ 2 -> near b (sp_ev sp (nth i alpha 0 * PI / 180) r) (m_at M i 0)).
  { intros M kx ky s sp b Es HM B Hs. rewrite (F _ _ _ _ _ _ _ Es (Q M HM) _ r 10).
    assert (T := fit_bound _ _ _ _ _ _ _ _ b i 0 S Es B Hs Hi' ltac:(cbn; lia)). rewrite Ha, (Z M HM) in T. exact T. }
  assert (Bl := K _ _ _ _ _ cl_bound El Cl ltac:(unfold cl_bound; lra) ltac:(unfold cl_bound; lra)).
  assert (Bd := K _ _ _ _ _ cd_bound Ed Cd ltac:(unfold cd_bound; lra) ltac:(unfold cd_bound; lra)).
  unfold cc_evaluate. rewrite Eu. destruct (Nat.ltb 0 (m_rows cm)) eqn:M.
  - apply Nat.ltb_lt in M. destruct (Em M) as (sp & Ecm & Esp). rewrite Ecm. cbn [andb]. do 3 eexists. split; [reflexivity|].
    refine (conj Bl (conj Bd (conj _ _))); [|lia]. intros _. eexists. split; [reflexivity|].
    exact (K _ _ _ _ _ cm_bound Esp (Cm M) ltac:(unfold cm_bound; lra) ltac:(unfold cm_bound; lra)).
  - apply Nat.ltb_ge in M. cbn [andb]. do 3 eexists. split; [reflexivity|]. refine (conj Bl (conj Bd (conj _ _))); [lia|reflexivity].
Qed.

(** * From a file *)
Lemma nondecreasing_NoDup l : nondecreasing l -> NoDup l -> increasing l.
Proof.
  intros N D i j H. specialize (N i j H). destruct N as [N|N]; [exact N|].
  assert (i = j) by (apply (proj1 (NoDup_nth l 0) D); [lia|lia|exact N]). lia.
Qed.
Lemma two_entries (l : list R) a b : In a l -> In b l -> a <> b -> (2 <= length l)%nat.
Proof. destruct l as [|x [|y l]]; cbn; intros; [tauto| |lia]. destruct H as [<-|[]], H0 as [<-|[]]. congruence. Qed.
Lemma value_node k p j y : wf_polar p -> (j < length (p_alpha p))%nat -> value k p (nth j (p_alpha p) 0) y -> y = nth j (col k p) 0.
Proof.
  intros (N & I & A & B & C) H V. assert (L : length (p_alpha p) = length (col k p)) by (destruct k; cbn [col]; congruence).
  rewrite <- (interp_node (p_alpha p) (col k p) j I L H).
  apply (polygon_unique (p_alpha p) (col k p) (nth j (p_alpha p) 0)); [exact I|exact N|exact V|].
  apply interp_polygon; assumption.
Qed.

Lemma airfoil_close rbs af0 a b : accepts rbs -> smooths rbs -> flat_fit rbs ->
  af0 <> [] -> sorted_by_Re af0 -> Forall wf_polar af0 -> NoDup (map p_Re af0) ->
  (exists p q, In p af0 /\ In q af0 /\ In a (p_alpha p) /\ In b (p_alpha q)) -> a <> b ->
  exists af, cc_from_airfoil rbs af0 = Ok af /\
    forall p i, In p af0 -> (i < length (p_alpha p))%nat ->
      exists l d m, cc_evaluate af (nth i (p_alpha p) 0 * PI / 180) (p_Re p) true = Ok (l, d, Some m) /\
        near cl_bound l (nth i (p_cl p) 0) /\ near cd_bound d (nth i (p_cd p) 0) /\ near cm_bound m (nth i (p_cm p) 0).
Proof.
  intros Acc Sm Fl N0 Sr W D (pa & pb & Ipa & Ipb & Ia & Ib) Nab.
  destruct (grid_ok af0 N0 Sr W) as (alpha & Re & A & B & C & Eg & Inc & Mem & ERe & Nd & Sh & Val).
  assert (IRe : increasing Re) by (rewrite ERe; rewrite ERe in Nd; apply nondecreasing_NoDup; assumption).
  assert (L2 : (2 <= length alpha)%nat) by (apply (two_entries alpha a b); [apply Mem; eauto|apply Mem; eauto|exact Nab]).
  assert (LRe : length Re = length af0) by (rewrite ERe, map_length; reflexivity).
  assert (L0 : (1 <= length af0)%nat) by (destruct af0; [congruence|cbn; lia]).
  assert (G : forall M, M = A \/ M = B \/ M = C -> grid_shape alpha Re M).
  { intros M HM. destruct (Sh M HM) as (R1 & R2). split; [exact R1|]. rewrite R2, LRe. lia. }
  destruct (cc_init_accepts rbs alpha Re A B C Acc L2 Inc IRe (G A ltac:(auto)) (G B ltac:(auto)) (or_introl (G C ltac:(auto))))
    as (af & Eaf & _).
  assert (RC : (0 < m_rows C)%nat) by (rewrite (proj1 (G C ltac:(auto))); lia).
  exists af. split. { unfold cc_from_airfoil. rewrite Eg. cbn [bind fst snd]. exact Eaf. }
  intros p i Hp Hi. destruct (In_nth _ _ polar0 Hp) as (j & Hj & Ej).
  assert (Wp : wf_polar p) by (rewrite Forall_forall in W; auto).
  assert (Ha : In (nth i (p_alpha p) 0) alpha) by (apply Mem; exists p; split; [exact Hp|apply nth_In; exact Hi]).
  destruct (In_nth _ _ 0 Ha) as (k & Hk & Ek).
  destruct (Val k j Hk Hj) as (V1 & V2 & V3). rewrite Ej, Ek in V1, V2, V3.
  apply (value_node CL) in V1; [|exact Wp|exact Hi]. apply (value_node CD) in V2; [|exact Wp|exact Hi]. apply (value_node CM) in V3; [|exact Wp|exact Hi].
  cbn [col] in V1, V2, V3. rewrite <- V1, <- V2, <- V3, <- Ek.
  assert (Er : nth j Re 0 = p_Re p).
  { rewrite ERe, <- Ej. rewrite (nth_indep _ 0 (p_Re polar0)) by (rewrite map_length; exact Hj). apply map_nth. }
  destruct (le_lt_dec 2 (length Re)) as [H2|H2].
  - destruct (grid_close rbs alpha Re A B C af k j Sm Eaf H2 Hk ltac:(lia)) as (l & d & m & E & Nl & Ndr & Nm & _).
    destruct (Nm RC) as (v & -> & Nv). rewrite Er in E. exists l, d, v. auto.
  - destruct (single_close rbs alpha Re A B C af k (p_Re p) Sm Fl Eaf H2) as (l & d & m & E & Nl & Ndr & Nm & _);
      [rewrite (proj2 (Sh A ltac:(auto))); lia|rewrite (proj2 (Sh B ltac:(auto))); lia|intros _; rewrite (proj2 (Sh C ltac:(auto))); lia|exact Hk|].
    destruct (Nm RC) as (v & -> & Nv). replace j with 0%nat by lia. exists l, d, v. auto.
Qed.

Lemma eventually_map A B (f : A -> B) run a : eventually run a -> eventually (fun n => option_map f (run n)) (f a).
Proof. intros (n & H). exists n. intros k L. rewrite (H k L). reflexivity. Qed.

Lemma file_close rbs to_float to_int file h1 h2 h3 count tlss tbs extra a b : accepts rbs -> smooths rbs -> flat_fit rbs ->
  lines_of file (h1 :: h2 :: h3 :: count :: concat tlss ++ extra) ->
  announces to_int count (Z.of_nat (length tbs)) -> Forall2 (table_lines to_float) tlss tbs ->
  Forall (fun t => wf_polar (polar_of t)) tbs -> NoDup (map tb_Re tbs) ->
  (exists t r, In t tbs /\ In r (tb_rows t) /\ row_alpha r = a) -> (exists t r, In t tbs /\ In r (tb_rows t) /\ row_alpha r = b) -> a <> b ->
  exists af, eventually (fun fuel => cc_initFromAerodynFile rbs to_float to_int fuel file) (Ok af) /\
    forall t r, In t tbs -> In r (tb_rows t) ->
      exists l d m, cc_evaluate af (row_alpha r * PI / 180) (tb_Re t * 1000000) true = Ok (l, d, Some m) /\
        near cl_bound l (row_cl r) /\ near cd_bound d (row_cd r) /\ near cm_bound m (row_cm r).
Proof.
  intros Acc Sm Fl Hl Hc Ht W D (ta & ra & Ita & Ira & Ea) (tb & rb & Itb & Irb & Eb) Nab.
  assert (N : tbs <> []) by (intros ->; destruct Ita).
  destruct (recovers to_float to_int file h1 h2 h3 count tlss tbs extra Hl Hc Ht N) as (af0 & Ev & P & So & _).
  assert (IP : forall t, In t tbs -> In (polar_of t) af0) by (intros t It; apply (Permutation_in _ P), in_map, It).
  assert (N0 : af0 <> []) by (intros ->; exact (IP _ Ita)).
  assert (W0 : Forall wf_polar af0).
  { apply Forall_forall. intros p Hp. apply (Permutation_in _ (Permutation_sym P)) in Hp. apply in_map_iff in Hp.
    destruct Hp as (t & <- & It). rewrite Forall_forall in W. exact (W t It). }
  assert (D0 : NoDup (map p_Re af0)).
  { apply (Permutation_NoDup (Permutation_map p_Re P)). rewrite map_map. cbn [polar_of p_Re].
    rewrite <- (map_map tb_Re (fun x => x * 1000000)). apply FinFun.Injective_map_NoDup; [|exact D]. intros x y E. lra. }
  destruct (airfoil_close rbs af0 a b Acc Sm Fl N0 So W0 D0) as (af & Eaf & H); [|exact Nab|].
  { exists (polar_of ta), (polar_of tb). split; [auto|]. split; [auto|]. cbn [polar_of p_alpha]. rewrite <- Ea, <- Eb. split; apply in_map; assumption. }
  exists af. split.
  { unfold cc_initFromAerodynFile. rewrite <- Eaf. change (cc_from_airfoil rbs af0) with ((fun r => do af <- r; cc_from_airfoil rbs af) (Ok af0)).
    apply eventually_map. exact Ev. }
  intros t r It Ir. destruct (In_nth _ _ r Ir) as (i & Hi & Ei).
  destruct (H (polar_of t) i (IP t It)) as (l & d & m & E & B).
  { cbn [polar_of p_alpha]. rewrite map_length. exact Hi. }
  cbn [polar_of p_alpha p_Re p_cl p_cd p_cm] in E, B.
  assert (M : forall f : row -> R, nth i (map f (tb_rows t)) 0 = f r).
  { intros f. rewrite (nth_indep _ 0 (f r)) by (rewrite map_length; exact Hi). rewrite map_nth, Ei. reflexivity. }
  rewrite !M in B. rewrite M in E. exists l, d, m. split; [exact E|exact B].
Qed.
