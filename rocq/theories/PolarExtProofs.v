(** Lemmas about the extrapolated and corrected polars. *)
From Coq Require Import Reals List Bool ZArith Lra Lia Sorted.
From Verif Require Import Prelim Interp Polar PolarExt InterpSpec InterpProofs PolarSpec PolarProofs.
Import ListNotations.
Open Scope R_scope.

(** * linspace *)
Lemma linspace_length a b n : length (linspace a b n) = n.
Proof. unfold linspace. rewrite map_length, seq_length. reflexivity. Qed.

Lemma linspace_nth a b n k : (k < n)%nat -> nth k (linspace a b n) 0 = a + INR k * ((b - a) / INR (n - 1)).
Proof.
  intros H. unfold linspace. rewrite (nth_map_lt _ _ _ 0%nat) by (rewrite seq_length; exact H).
  rewrite seq_nth by exact H. reflexivity.
Qed.

Lemma linspace_in a b n x : (2 <= n)%nat -> a < b -> In x (linspace a b n) -> a <= x <= b.
Proof.
  intros Hn Hab Hx. unfold linspace in Hx. apply in_map_iff in Hx. destruct Hx as (k & <- & Hk).
  apply in_seq in Hk. assert (P : 0 < INR (n - 1)) by (apply lt_0_INR; lia).
  assert (K : INR k <= INR (n - 1)) by (apply le_INR; lia). pose proof (pos_INR k).
  assert (0 <= (b - a) / INR (n - 1)) by (apply Rlt_le, Rdiv_lt_0_compat; lra).
  split; [nra|]. apply Rle_trans with (a + INR (n - 1) * ((b - a) / INR (n - 1))); [nra|]. right. field. lra.
Qed.

Lemma linspace_incr a b n : (2 <= n)%nat -> a < b -> increasing (linspace a b n).
Proof.
  intros Hn Hab i j Hij. rewrite linspace_length in Hij. rewrite !linspace_nth by lia.
  assert (P : 0 < INR (n - 1)) by (apply lt_0_INR; lia).
  assert (0 < (b - a) / INR (n - 1)) by (apply Rdiv_lt_0_compat; lra).
  assert (INR i < INR j) by (apply lt_INR; lia). nra.
Qed.

Lemma linspace_first a b n : (1 <= n)%nat -> first (linspace a b n) = a.
Proof. intros H. unfold first. rewrite linspace_nth by lia. simpl. ring. Qed.

Lemma linspace_final a b n : (2 <= n)%nat -> final (linspace a b n) = b.
Proof.
  intros H. unfold final. rewrite linspace_length, linspace_nth by lia. field.
  apply not_0_INR. lia.
Qed.

Lemma tl_nth (l : list R) i : nth i (tl l) 0 = nth (S i) l 0.
Proof. destruct l; [destruct i; reflexivity|reflexivity]. Qed.

Lemma tl_in (l : list R) x : In x (tl l) -> In x l.
Proof. destruct l; simpl; auto. Qed.

Lemma tl_incr l : increasing l -> increasing (tl l).
Proof. destruct l; [auto|]. apply increasing_tail. Qed.

Lemma tlin_in a b n x : (2 <= n)%nat -> a < b -> In x (tl (linspace a b n)) -> a < x <= b.
Proof.
  intros Hn Hab Hx. pose proof (linspace_in a b n x Hn Hab (tl_in _ _ Hx)). split; [|lra].
  apply (In_nth _ _ 0) in Hx. destruct Hx as (i & Hi & <-). rewrite tl_nth.
  assert (Hl : length (linspace a b n) = n) by apply linspace_length.
  assert (S i < n)%nat. { destruct (linspace a b n); simpl in *; lia. }
  pose proof (linspace_incr a b n Hn Hab 0%nat (S i) ltac:(lia)) as H1.
  change (nth 0 (linspace a b n) 0) with (first (linspace a b n)) in H1. rewrite linspace_first in H1 by lia. exact H1.
Qed.

Lemma slice_in l x : In x (slice_1_m2 l) -> exists i, (S i < length l)%nat /\ (0 < i)%nat /\ nth i l 0 = x.
Proof.
  intros H. unfold slice_1_m2 in H. apply (In_nth _ _ 0) in H. destruct H as (i & Hi & <-).
  rewrite firstn_length in Hi. exists (S i). split; [|split; [lia|]].
  - destruct l; simpl in *; lia.
  - rewrite <- tl_nth. rewrite <- (firstn_skipn (length l - 3) (tl l)) at 1. rewrite app_nth1; [reflexivity|].
    rewrite firstn_length. lia.
Qed.

Lemma firstn_ss n : forall l, StronglySorted Rlt l -> StronglySorted Rlt (firstn n l).
Proof.
  induction n as [|n IH]; intros l H; [constructor|]. destruct l as [|x l]; [constructor|].
  inversion H as [|? ? H1 H2]; subst. cbn [firstn]. constructor; [auto|].
  apply Forall_forall. intros y Hy. rewrite Forall_forall in H2. apply H2.
  rewrite <- (firstn_skipn n l). apply in_or_app. left. exact Hy.
Qed.

Lemma slice_incr l : increasing l -> increasing (slice_1_m2 l).
Proof. intros H. apply incr_ss. apply firstn_ss. apply incr_ss. apply tl_incr. exact H. Qed.

Lemma slin_in a b n x : (2 <= n)%nat -> a < b -> In x (slice_1_m2 (linspace a b n)) -> a < x < b.
Proof.
  intros Hn Hab Hx. apply slice_in in Hx. destruct Hx as (i & Hi & Hp & <-).
  pose proof (linspace_incr a b n Hn Hab) as I. rewrite linspace_length in Hi.
  pose proof (I 0%nat i ltac:(rewrite linspace_length; lia)) as H1.
  pose proof (I i (n - 1)%nat ltac:(rewrite linspace_length; lia)) as H2.
  pose proof (linspace_first a b n ltac:(lia)) as F. pose proof (linspace_final a b n Hn) as G.
  unfold first in F. unfold final in G. rewrite linspace_length in G. lra.
Qed.

Lemma incr_app l m : increasing l -> increasing m -> (forall x y, In x l -> In y m -> x < y) -> increasing (l ++ m).
Proof.
  rewrite !incr_ss. intros Hl Hm H. induction Hl as [|x l Hl IH F]; [exact Hm|]. cbn [app]. constructor.
  - apply IH. intros a b Ha Hb. apply H; [right|]; assumption.
  - apply Forall_app. split; [exact F|]. apply Forall_forall. intros y Hy. apply H; [left; reflexivity|exact Hy].
Qed.

Lemma incr_map f l : (forall x y, x < y -> f x < f y) -> increasing l -> increasing (map f l).
Proof.
  intros Hf H i j Hij. rewrite map_length in Hij. rewrite !(nth_map_lt _ _ _ 0) by lia. apply Hf, H. exact Hij.
Qed.

Lemma degrees_mono x y : x < y -> degrees x < degrees y.
Proof.
  intros H. unfold degrees. apply Rmult_lt_compat_r; [|exact H]. apply Rdiv_lt_0_compat; [lra|apply PI_RGT_0].
Qed.
Lemma radians_mono x y : x < y -> radians x < radians y.
Proof.
  intros H. unfold radians. apply Rmult_lt_compat_r; [|exact H]. apply Rdiv_lt_0_compat; [apply PI_RGT_0|lra].
Qed.
Lemma radians_le x y : x <= y -> radians x <= radians y.
Proof. intros [H| ->]; [left; apply radians_mono; exact H|lra]. Qed.
Lemma radians_90 : radians 90 = PI / 2.
Proof. unfold radians. field. Qed.
Lemma radians_opp x : radians (- x) = - radians x.
Proof. unfold radians. ring. Qed.
Lemma degrees_180 : degrees PI = 180.
Proof. unfold degrees. field. apply PI_neq0. Qed.
Lemma degrees_opp x : degrees (- x) = - degrees x.
Proof. unfold degrees. ring. Qed.

Lemma last_final (l : list R) : last l 0 = final l.
Proof.
  unfold final. induction l as [|x l IH]; [reflexivity|]. destruct l as [|y l]; [reflexivity|].
  change (last (x :: y :: l) 0) with (last (y :: l) 0). rewrite IH. simpl. rewrite Nat.sub_0_r. reflexivity.
Qed.

Lemma final_app l m : m <> [] -> final (l ++ m) = final m.
Proof.
  intros H. rewrite <- !last_final. induction l as [|x l IH]; [reflexivity|]. cbn [app].
  destruct (l ++ m) as [|y k] eqn:E; [destruct l; [simpl in E; congruence|discriminate]|].
  change (last (x :: y :: k) 0) with (last (y :: k) 0). exact IH.
Qed.

Lemma final_tl l : (2 <= length l)%nat -> final (tl l) = final l.
Proof. destruct l as [|x [|y l]]; simpl; intros; try lia. unfold final. simpl. rewrite Nat.sub_0_r. reflexivity. Qed.

Lemma final_map f l : l <> [] -> final (map f l) = f (final l).
Proof.
  intros H. unfold final. rewrite map_length. apply nth_map_lt. destruct l; [congruence|simpl; lia].
Qed.

(** * The angles and values around the data *)
Section Shape.
Variables (p : polar) (n : nat).
Let h := radians (final (p_alpha p)).
Let lo := radians (first (p_alpha p)).

Definition seg1 := tl (linspace h (PI / 2) n).
Definition seg2 := tl (linspace (PI / 2) (PI - h) n).
Definition seg3 := tl (linspace (PI - h) PI n).
Definition seg4 := if rleb lo (- h) then [] else slice_1_m2 (linspace (- h) lo n).
Definition seg5 := tl (linspace (- PI / 2) (if rleb lo (- h) then lo else - h) n).
Definition seg6 := tl (linspace (- PI + h) (- PI / 2) n).
Definition seg7 := linspace (- PI) (- PI + h) n.
Definition before := seg7 ++ seg6 ++ seg5 ++ seg4.
Definition after := seg1 ++ seg2 ++ seg3.
End Shape.

Definition cdm (p : polar) (cdmax : R) (AR : option R) : R :=
  Rmax (match amax (p_cd p) with Ok m => m | Raise _ => 0 end)
       (match AR with Some ar => 111 / 100 + 18 / 1000 * ar | None => cdmax end).
Definition vA (p : polar) (cm : R) : R :=
  let h := radians (final (p_alpha p)) in
  (final (p_cl p) - cm * sin h * cos h) * sin h / cos h ^ 2.
Definition vB (p : polar) (cm : R) : R :=
  let h := radians (final (p_alpha p)) in
  (final (p_cd p) - cm * sin h * sin h) / cos h.

Definition cl_before (p : polar) (n : nat) (cm : R) : list R :=
  let h := radians (final (p_alpha p)) in
  let lo := radians (first (p_alpha p)) in
  let ch := final (p_cl p) in
  map (fun a => (a + PI) / h * ch * (7 / 10)) (seg7 p n) ++
  map (fun a => viterna_cl cm (vA p cm) (7 / 10) (a + PI)) (seg6 p n) ++
  map (fun a => viterna_cl cm (vA p cm) (- (7 / 10)) (- a)) (seg5 p n) ++
  map (fun a => - ch * (7 / 10) + (a + h) / (lo + h) * (first (p_cl p) + ch * (7 / 10))) (seg4 p n).
Definition cl_after (p : polar) (n : nat) (cm : R) : list R :=
  let h := radians (final (p_alpha p)) in
  let ch := final (p_cl p) in
  map (viterna_cl cm (vA p cm) 1) (seg1 p n) ++
  map (fun a => viterna_cl cm (vA p cm) (- (7 / 10)) (PI - a)) (seg2 p n) ++
  map (fun a => (a - PI) / h * ch * (7 / 10)) (seg3 p n).
Definition cd_before (p : polar) (n : nat) (cm : R) : list R :=
  let h := radians (final (p_alpha p)) in
  let lo := radians (first (p_alpha p)) in
  map (fun a => viterna_cd cm (vB p cm) (a + PI)) (seg7 p n) ++
  map (fun a => viterna_cd cm (vB p cm) (a + PI)) (seg6 p n) ++
  map (fun a => viterna_cd cm (vB p cm) (- a)) (seg5 p n) ++
  map (fun a => first (p_cd p) + (a - lo) / (- h - lo) * (final (p_cd p) - first (p_cd p))) (seg4 p n).
Definition cd_after (p : polar) (n : nat) (cm : R) : list R :=
  map (viterna_cd cm (vB p cm)) (seg1 p n) ++
  map (fun a => viterna_cd cm (vB p cm) (PI - a)) (seg2 p n) ++
  map (fun a => viterna_cd cm (vB p cm) (PI - a)) (seg3 p n).

Lemma extrapolate_eq p cdmax AR cdmin n : wf_polar p -> 0 <= cdmin ->
  -90 <= first (p_alpha p) -> final (p_alpha p) <= 90 ->
  extrapolate p cdmax AR cdmin n =
  let cm := cdm p cdmax AR in
  let deg := map degrees (before p n) ++ p_alpha p ++ map degrees (after p n) in
  let cl := cl_before p n cm ++ p_cl p ++ cl_after p n cm in
  let cd := map (fun c => Rmax c cdmin) (cd_before p n cm) ++ map (fun c => Rmax c cdmin) (p_cd p) ++
            map (fun c => Rmax c cdmin) (cd_after p n cm) in
  do m <- cm_extrapolated p (radians (final (p_alpha p))) (final (p_cl p)) (final (p_cd p)) (final (p_cm p)) deg cl cd;
  Ok (mkPolar (p_Re p) deg cl cd m).
Proof.
  intros W Hc Hlo Hhi. unfold extrapolate.
  replace (rltb cdmin 0) with false by (symmetry; apply rltb_false; exact Hc).
  assert (Ecd : exists m, amax (p_cd p) = Ok m).
  { destruct W as (N & _ & _ & L & _). destruct (p_cd p); [destruct (p_alpha p); [congruence|discriminate]|eexists; reflexivity]. }
  destruct Ecd as [m Em]. cbv zeta. unfold cdm. rewrite Em. cbn [bind].
  destruct (p_alpha p) as [|a0 al] eqn:Ea; [destruct W; congruence|].
  rewrite <- Ea in *. rewrite !last_final. change (nth 0 (p_alpha p) 0) with (first (p_alpha p)).
  change (nth 0 (p_cl p) 0) with (first (p_cl p)). change (nth 0 (p_cd p) 0) with (first (p_cd p)).
  replace (rltb (PI / 2) (radians (final (p_alpha p)))) with false
    by (symmetry; apply rltb_false; rewrite <- radians_90; apply radians_le; exact Hhi).
  replace (rltb (radians (first (p_alpha p))) (- PI / 2)) with false.
  2: { symmetry. apply rltb_false. replace (- PI / 2) with (radians (-90)) by (unfold radians; field).
       apply radians_le. exact Hlo. }
  assert (Edeg : forall n0, map degrees (before p n0) ++ p_alpha p ++ map degrees (after p n0) =
     map degrees (seg7 p n0 ++ seg6 p n0 ++ seg5 p n0 ++ seg4 p n0 ++ map radians (p_alpha p) ++ seg1 p n0 ++ seg2 p n0 ++ seg3 p n0)).
  { intros n0. unfold before, after. rewrite !map_app, <- !app_assoc. repeat f_equal. rewrite map_map.
    rewrite <- (map_id (p_alpha p)) at 1. apply map_ext. intros; symmetry; apply degrees_radians. }
  rewrite Edeg. unfold cl_before, cl_after, cd_before, cd_after, seg1, seg2, seg3, seg4, seg5, seg6, seg7, vA, vB.
  cbv zeta. rewrite !map_app, <- !app_assoc. reflexivity.
Qed.

Lemma extrapolate_raises p cdmax AR cdmin n : wf_polar p ->
  cdmin < 0 \/ 90 < final (p_alpha p) \/ first (p_alpha p) < -90 ->
  extrapolate p cdmax AR cdmin n = Raise OtherException.
Proof.
  intros W H. unfold extrapolate. destruct (rltb cdmin 0) eqn:E0; rb_hyps; [reflexivity|].
  assert (Ecd : exists m, amax (p_cd p) = Ok m).
  { destruct W as (N & _ & _ & L & _). destruct (p_cd p); [destruct (p_alpha p); [congruence|discriminate]|eexists; reflexivity]. }
  destruct Ecd as [m Em]. cbv zeta. rewrite Em. cbn [bind].
  destruct (p_alpha p) as [|a0 al] eqn:Ea; [destruct W; congruence|].
  rewrite <- Ea in *. rewrite !last_final. change (nth 0 (p_alpha p) 0) with (first (p_alpha p)).
  destruct (rltb (PI / 2) (radians (final (p_alpha p)))) eqn:E1; rb_hyps; [reflexivity|].
  destruct (rltb (radians (first (p_alpha p))) (- PI / 2)) eqn:E2; rb_hyps; [reflexivity|]. exfalso.
  destruct H as [H|[H|H]]; [lra| |]; apply radians_mono in H.
  - rewrite radians_90 in H. lra.
  - replace (radians (-90)) with (- PI / 2) in H by (unfold radians; field). lra.
Qed.

Section Angles.
Variables (p : polar) (n : nat).
Hypothesis W : wf_polar p.
Hypothesis Hn : (2 <= n)%nat.
Notation h := (radians (final (p_alpha p))).
Notation lo := (radians (first (p_alpha p))).

Lemma lo_le_h : lo <= h.
Proof.
  apply radians_le. apply (in_first_final (p_alpha p) (first (p_alpha p))); [apply W|]. apply first_in, W.
Qed.

Lemma before_first : first (map degrees (before p n)) = -180.
Proof.
  unfold before, seg7. pose proof (linspace_first (- PI) (- PI + h) n ltac:(lia)) as F.
  pose proof (linspace_length (- PI) (- PI + h) n) as L. destruct (linspace _ _ _) as [|x l]; [simpl in L; lia|].
  unfold first in *. cbn [app map nth] in *. rewrite F, degrees_opp, degrees_180. reflexivity.
Qed.

Lemma after_final : final (map degrees (after p n)) = 180.
Proof.
  assert (L : forall a b, (1 <= length (tl (linspace a b n)))%nat).
  { intros. pose proof (linspace_length a b n). destruct (linspace a b n) as [|x [|y l]]; simpl in *; lia. }
  assert (N : forall a b, tl (linspace a b n) <> []).
  { intros a b E. specialize (L a b). rewrite E in L. simpl in L. lia. }
  rewrite final_map by (unfold after, seg1; intros E; apply app_eq_nil in E; destruct E as [E _]; exact (N _ _ E)).
  unfold after. rewrite !final_app; [|apply N|intros E; apply app_eq_nil in E; destruct E as [E _]; exact (N _ _ E)].
  unfold seg3. rewrite final_tl, linspace_final by (rewrite ?linspace_length; exact Hn). apply degrees_180.
Qed.

Lemma first_app l m : l <> [] -> first (l ++ m) = first l.
Proof. destruct l; [congruence|reflexivity]. Qed.

Lemma before_ne : map degrees (before p n) <> [].
Proof.
  unfold before, seg7. pose proof (linspace_length (- PI) (- PI + h) n) as L.
  destruct (linspace _ _ _); [simpl in L; lia|discriminate].
Qed.
Lemma after_ne : map degrees (after p n) <> [].
Proof.
  unfold after, seg1. pose proof (linspace_length h (PI / 2) n) as L.
  destruct (linspace _ _ _) as [|x [|y l]]; simpl in L; [lia|lia|discriminate].
Qed.

(** Strict order when the data reach above minus the upper end. *)
Lemma angles_increasing : 0 < final (p_alpha p) < 90 -> - final (p_alpha p) < first (p_alpha p) ->
  increasing (map degrees (before p n) ++ p_alpha p ++ map degrees (after p n)).
Proof.
  intros [H0 H9] Hlo.
  assert (Hh : 0 < h < PI / 2).
  { split; [replace 0 with (radians 0) by (unfold radians; ring)|rewrite <- radians_90]; apply radians_mono; assumption. }
  assert (Hl : - h < lo) by (rewrite <- radians_opp; apply radians_mono; exact Hlo).
  pose proof lo_le_h as Hlh. pose proof PI_RGT_0 as P.
  replace (map degrees (before p n) ++ p_alpha p ++ map degrees (after p n)) with
    (map degrees (before p n ++ map radians (p_alpha p) ++ after p n)).
  2: { rewrite !map_app, map_map. repeat f_equal. rewrite <- (map_id (p_alpha p)) at 2. apply map_ext, degrees_radians. }
  apply incr_map; [apply degrees_mono|].
  assert (Eb : rleb lo (- h) = false) by (apply rleb_false; exact Hl).
  assert (B7 : forall x, In x (seg7 p n) -> - PI <= x <= - PI + h) by (intros x; apply linspace_in; [exact Hn|lra]).
  assert (B6 : forall x, In x (seg6 p n) -> - PI + h < x <= - PI / 2) by (intros x; apply tlin_in; [exact Hn|lra]).
  assert (B5 : forall x, In x (seg5 p n) -> - PI / 2 < x <= - h).
  { intros x. unfold seg5. rewrite Eb. apply tlin_in; [exact Hn|lra]. }
  assert (B4 : forall x, In x (seg4 p n) -> - h < x < lo).
  { intros x. unfold seg4. rewrite Eb. apply slin_in; [exact Hn|lra]. }
  assert (BD : forall x, In x (map radians (p_alpha p)) -> lo <= x <= h).
  { intros x Hx. apply in_map_iff in Hx. destruct Hx as (a & <- & Ha).
    pose proof (in_first_final _ _ (proj1 (proj2 W)) Ha). split; apply radians_le; tauto. }
  assert (B1 : forall x, In x (seg1 p n) -> h < x <= PI / 2) by (intros x; apply tlin_in; [exact Hn|lra]).
  assert (B2 : forall x, In x (seg2 p n) -> PI / 2 < x <= PI - h) by (intros x; apply tlin_in; [exact Hn|lra]).
  assert (B3 : forall x, In x (seg3 p n) -> PI - h < x <= PI) by (intros x; apply tlin_in; [exact Hn|lra]).
  assert (I7 : increasing (seg7 p n)) by (apply linspace_incr; [exact Hn|lra]).
  assert (I6 : increasing (seg6 p n)) by (apply tl_incr, linspace_incr; [exact Hn|lra]).
  assert (I5 : increasing (seg5 p n)) by (unfold seg5; rewrite Eb; apply tl_incr, linspace_incr; [exact Hn|lra]).
  assert (I4 : increasing (seg4 p n)) by (unfold seg4; rewrite Eb; apply slice_incr, linspace_incr; [exact Hn|lra]).
  assert (ID : increasing (map radians (p_alpha p))) by (apply incr_map; [apply radians_mono|apply W]).
  assert (I1 : increasing (seg1 p n)) by (apply tl_incr, linspace_incr; [exact Hn|lra]).
  assert (I2 : increasing (seg2 p n)) by (apply tl_incr, linspace_incr; [exact Hn|lra]).
  assert (I3 : increasing (seg3 p n)) by (apply tl_incr, linspace_incr; [exact Hn|lra]).
  unfold before, after. rewrite <- !app_assoc.
  Ltac ends := intros ?x ?y ?Hx ?Hy;
    repeat match goal with H : In _ (_ ++ _) |- _ => apply in_app_or in H; destruct H as [H|H] end;
    repeat match goal with
    | H : In ?x ?l, B : forall x, In x ?l -> _ |- _ => apply B in H
    end; lra.
  apply incr_app; [exact I7| |ends].
  apply incr_app; [exact I6| |ends].
  apply incr_app; [exact I5| |ends].
  apply incr_app; [exact I4| |ends].
  apply incr_app; [exact ID| |ends].
  apply incr_app; [exact I1| |ends].
  apply incr_app; [exact I2|exact I3|ends].
Qed.

(** When the data reach down to minus the upper end the first data angle appears twice. *)
Lemma angles_duplicate : first (p_alpha p) <= - final (p_alpha p) ->
  exists l, map degrees (before p n) = l ++ [first (p_alpha p)].
Proof.
  intros H. assert (Eb : rleb lo (- h) = true).
  { apply rleb_true. rewrite <- radians_opp. apply radians_le. exact H. }
  unfold before, seg4, seg5. rewrite Eb, app_nil_r.
  pose proof (linspace_length (- PI / 2) lo n) as L. pose proof (linspace_final (- PI / 2) lo n Hn) as F.
  rewrite <- final_tl in F by lia. set (t := tl (linspace (- PI / 2) lo n)) in *.
  assert (N : t <> []).
  { unfold t. destruct (linspace _ _ _) as [|x [|y l]]; simpl in L; [lia|lia|discriminate]. }
  destruct (exists_last N) as (u & x & E). rewrite E in *. clear t E.
  assert (Fx : final (u ++ [x]) = x) by (rewrite final_app by discriminate; reflexivity). rewrite Fx in F. subst x.
  exists (map degrees (seg7 p n ++ seg6 p n ++ u)). rewrite !map_app, <- !app_assoc. cbn [map].
  rewrite degrees_radians. reflexivity.
Qed.
End Angles.
