(** The CCBlade constructor (C27 radius, C30-C32). *)
From Coq Require Import Reals Bool Arith List Lra Lia.
From Verif Require Import Prelim Num Bem Interp InterpSpec InterpProofs Blade FlProofs StationProofs.
Import ListNotations.
Open Scope R_scope.

Lemma set_last_length x l : length (set_last x l) = length l.
Proof.
  destruct l as [|a l]; [reflexivity|]. unfold set_last.
  rewrite (app_removelast_last 0 (l := a :: l)) at 2 by discriminate. rewrite !app_length. reflexivity.
Qed.

Lemma set_first_length x l : length (set_first x l) = length l.
Proof. destruct l; reflexivity. Qed.

Lemma removelast_length {X} (a : X) l : length (removelast (a :: l)) = length l.
Proof.
  revert a; induction l as [|b l IH]; intros a; [reflexivity|].
  change (removelast (a :: b :: l)) with (a :: removelast (b :: l)). simpl length. rewrite <- (IH b). reflexivity.
Qed.

Lemma nth_removelast l i : (S i < length l)%nat -> nth i (removelast l) 0 = nth i l 0.
Proof.
  intros H. assert (l <> []) by (intros ->; simpl in H; lia).
  rewrite (app_removelast_last 0 (l := l)) at 2 by assumption.
  rewrite app_nth1; [reflexivity|]. destruct l; [congruence|]. rewrite removelast_length. simpl in H. lia.
Qed.

Lemma nth_set_last x l i : (i < length l)%nat ->
  nth i (set_last x l) 0 = if Nat.eqb (S i) (length l) then x else nth i l 0.
Proof.
  intros H. destruct l as [|a l]; [simpl in H; lia|]. unfold set_last.
  pose proof (removelast_length a l) as E. simpl in H. destruct (Nat.eqb_spec (S i) (length (a :: l))) as [Hi|Hi]; simpl in Hi.
  - rewrite app_nth2 by lia. replace (i - length (removelast (a :: l)))%nat with 0%nat by lia. reflexivity.
  - rewrite app_nth1 by lia. apply nth_removelast. simpl. lia.
Qed.

Lemma nth_set_first x l i : (i < length l)%nat ->
  nth i (set_first x l) 0 = if Nat.eqb i 0 then x else nth i l 0.
Proof. intros H. destruct l; [simpl in H; lia|]. destruct i; reflexivity. Qed.

Lemma last_nth l : l <> [] -> last l 0 = nth (length l - 1) l 0.
Proof.
  intros H. rewrite (app_removelast_last 0 (l := l)) at 2 3 by assumption.
  rewrite app_length. simpl. rewrite Nat.add_sub. rewrite app_nth2 by lia. rewrite Nat.sub_diag. reflexivity.
Qed.

Lemma hd_nth l : hd 0 l = nth 0 l 0.
Proof. destruct l; reflexivity. Qed.

(** r_nd of an increasing list *)
Lemma r_nd_length r : length (r_nd r) = length r.
Proof. apply map_length. Qed.

Lemma nth_r_nd r i : (i < length r)%nat ->
  nth i (r_nd r) 0 = (nth i r 0 - nth 0 r 0) / (nth (length r - 1) r 0 - nth 0 r 0).
Proof.
  intros H. unfold r_nd. rewrite last_nth by (intros ->; simpl in H; lia). rewrite hd_nth.
  set (f := fun x => (x - nth 0 r 0) / (nth (length r - 1) r 0 - nth 0 r 0)).
  rewrite (nth_indep _ 0 (f 0)) by (rewrite map_length; assumption). rewrite map_nth. reflexivity.
Qed.

Lemma r_nd_increasing r : increasing r -> (2 <= length r)%nat -> increasing (r_nd r).
Proof.
  intros HI HL i j Hij. rewrite r_nd_length in Hij. rewrite !nth_r_nd by lia.
  pose proof (HI 0%nat (length r - 1)%nat ltac:(lia)). specialize (HI i j Hij).
  apply Rmult_lt_compat_r; [apply Rinv_0_lt_compat; lra|lra].
Qed.

Lemma r_as_nd r : increasing r -> (2 <= length r)%nat ->
  r = map (fun t => (nth (length r - 1) r 0 - nth 0 r 0) * t + nth 0 r 0) (r_nd r).
Proof.
  intros HI HL. pose proof (HI 0%nat (length r - 1)%nat ltac:(lia)) as D.
  unfold r_nd. rewrite map_map. rewrite last_nth by (intros ->; simpl in HL; lia). rewrite hd_nth.
  transitivity (map (fun x => x) r); [symmetry; apply map_id|]. apply map_ext. intros x. field. lra.
Qed.

Lemma interp_r r t : increasing r -> (2 <= length r)%nat -> 0 <= t <= 1 ->
  interp t (r_nd r) r = nth 0 r 0 + t * (nth (length r - 1) r 0 - nth 0 r 0).
Proof.
  intros HI HL Ht. pose proof (HI 0%nat (length r - 1)%nat ltac:(lia)) as D.
  rewrite (r_as_nd r HI HL) at 2. rewrite interp_affine.
  - ring.
  - apply r_nd_increasing; assumption.
  - intros E. apply (f_equal (@length R)) in E. rewrite r_nd_length in E. simpl in E. lia.
  - rewrite r_nd_length. rewrite !nth_r_nd by lia.
    replace ((nth 0 r 0 - nth 0 r 0) / (nth (length r - 1) r 0 - nth 0 r 0)) with 0 by (field; lra).
    replace ((nth (length r - 1) r 0 - nth 0 r 0) / (nth (length r - 1) r 0 - nth 0 r 0)) with 1 by (field; lra). lra.
Qed.

(** The two moved end points, as fractions of the span. *)
Lemma nd_hub_range r : increasing r -> (2 <= length r)%nat ->
  0 < nd_hub (r_nd r) <= 1 / 100 /\
  nth 0 r 0 + nd_hub (r_nd r) * (nth (length r - 1) r 0 - nth 0 r 0) < nth 1 r 0.
Proof.
  intros HI HL. pose proof (HI 0%nat (length r - 1)%nat ltac:(lia)) as D.
  pose proof (HI 0%nat 1%nat ltac:(lia)) as D1. unfold nd_hub. rewrite !nth_r_nd by lia.
  set (d := nth (length r - 1) r 0 - nth 0 r 0) in *. assert (Hd : 0 < d) by (unfold d; lra).
  set (m := ((nth 0 r 0 - nth 0 r 0) / d + (nth 1 r 0 - nth 0 r 0) / d) / 2).
  assert (Em : m * d = (nth 1 r 0 - nth 0 r 0) / 2) by (unfold m; field; lra).
  assert (Hm : 0 < m) by (apply Rmult_lt_reg_r with d; lra).
  pose proof (Rmin_l (1 / 100) m). pose proof (Rmin_r (1 / 100) m).
  assert (0 < Rmin (1 / 100) m) by (apply Rmin_glb_lt; lra).
  split; [lra|]. assert (Rmin (1 / 100) m * d <= m * d) by (apply Rmult_le_compat_r; lra). lra.
Qed.

Lemma nd_tip_range r : increasing r -> (2 <= length r)%nat ->
  99 / 100 <= nd_tip (r_nd r) < 1 /\
  nth (length r - 2) r 0 < nth 0 r 0 + nd_tip (r_nd r) * (nth (length r - 1) r 0 - nth 0 r 0).
Proof.
  intros HI HL. pose proof (HI 0%nat (length r - 1)%nat ltac:(lia)) as D.
  pose proof (HI (length r - 2)%nat (length r - 1)%nat ltac:(lia)) as D1. unfold nd_tip. rewrite r_nd_length, !nth_r_nd by lia.
  set (d := nth (length r - 1) r 0 - nth 0 r 0) in *. assert (Hd : 0 < d) by (unfold d; lra).
  set (m := ((nth (length r - 2) r 0 - nth 0 r 0) / d + d / d) / 2).
  assert (Em : m * d = (nth (length r - 2) r 0 + nth (length r - 1) r 0) / 2 - nth 0 r 0) by (unfold m, d; field; unfold d in *; lra).
  assert (Hm : m < 1) by (apply Rmult_lt_reg_r with d; [lra|]; unfold d in *; lra).
  pose proof (Rmax_l (99 / 100) m). pose proof (Rmax_r (99 / 100) m).
  assert (Rmax (99 / 100) m < 1) by (apply Rmax_lub_lt; lra).
  split; [lra|]. assert (m * d <= Rmax (99 / 100) m * d) by (apply Rmult_le_compat_r; lra). lra.
Qed.

(** What a successful construction stores. *)
Record stored (g : args) (b : blade) : Prop := mkStored {
  st_len : (2 <= length (g_r g))%nat;
  st_r : b_r b =
    (let r1 := if reqb (g_Rhub g) (hd 0 (g_r g)) then set_first (interp (nd_hub (r_nd (g_r g))) (r_nd (g_r g)) (g_r g)) (g_r g) else g_r g in
     if reqb (g_Rtip g) (last (g_r g) 0) then set_last (interp (nd_tip (r_nd (g_r g))) (r_nd (g_r g)) (g_r g)) r1 else r1);
  st_Rhub : b_Rhub b = g_Rhub g;
  st_Rtip : b_Rtip b = g_Rtip g;
  st_R : b_rotorR b = g_Rtip g * cos (radians (g_precone g)) + b_precurveTip b * sin (radians (g_precone g));
  st_n : b_nSector b = if andb (andb (reqb (radians (g_tilt g)) 0) (reqb (radians (g_yaw g)) 0)) (reqb (g_shearExp g) 0) then 1%nat
                       else Nat.max 4 (g_nSector g);
  st_pct : b_precurveTip b = match g_precurve g with Some _ => g_precurveTip g | None => 0 end;
  st_pst : b_presweepTip b = match g_presweep g with Some _ => g_presweepTip g | None => 0 end;
  st_pc : b_precurve b = (let pc := match g_precurve g with Some l => l | None => map (fun _ => 0) (g_r g) end in
     if reqb (b_precurveTip b) (last pc 0) then set_last (interp (nd_tip (r_nd (g_r g))) (r_nd (g_r g)) pc) pc else pc);
  st_ps : b_presweep b = (let ps := match g_presweep g with Some l => l | None => map (fun _ => 0) (g_r g) end in
     if reqb (b_presweepTip b) (last ps 0) then set_last (interp (nd_tip (r_nd (g_r g))) (r_nd (g_r g)) ps) ps else ps);
  st_rho : b_rho b = g_rho g;
  st_inv : b_inverse b = false }.

Lemma construct_stored g b : construct g = Ok b -> stored g b.
Proof.
  intros H. unfold construct in H. cbv zeta in H.
  destruct (Nat.ltb_spec (length (g_r g)) 2) as [|HL]; [discriminate|].
  destruct (curve_error _ _ _ _ _); [discriminate|]. apply ok_inj in H. subst b. constructor; reflexivity || assumption.
Qed.

Lemma radians_zero x : radians x = 0 <-> x = 0.
Proof.
  unfold radians. pose proof PI_RGT_0. split; [|intros ->; field].
  intros H0. assert (E : x = x * PI / 180 * (180 / PI)) by (field; lra). replace (x * PI / 180) with 0 in E by (rewrite <- H0; field). lra.
Qed.

(** C30 *)
Lemma sector_rule : forall g b, construct g = Ok b ->
  (g_tilt g = 0 /\ g_yaw g = 0 /\ g_shearExp g = 0 -> b_nSector b = 1%nat) /\
  (~ (g_tilt g = 0 /\ g_yaw g = 0 /\ g_shearExp g = 0) -> b_nSector b = Nat.max 4 (g_nSector g)).
Proof.
  intros g b H. apply construct_stored in H. rewrite (st_n _ _ H). clear H b.
  destruct (reqb (radians (g_tilt g)) 0) eqn:E1; destruct (reqb (radians (g_yaw g)) 0) eqn:E2;
    destruct (reqb (g_shearExp g) 0) eqn:E3; rb_hyps; cbn [andb]; rewrite ?radians_zero in *; tauto.
Qed.

(** C31 *)
Lemma stations_inside : forall g b, construct g = Ok b -> increasing (g_r g) ->
  g_Rhub g <= nth 0 (g_r g) 0 -> nth (length (g_r g) - 1) (g_r g) 0 <= g_Rtip g ->
  let n := length (g_r g) in
  b_Rhub b = g_Rhub g /\ b_Rtip b = g_Rtip g /\
  length (b_r b) = n /\ increasing (b_r b) /\ g_Rhub g < nth 0 (b_r b) 0 /\ nth (n - 1) (b_r b) 0 < g_Rtip g /\
  (forall i, (0 < i < n - 1)%nat -> nth i (b_r b) 0 = nth i (g_r g) 0) /\
  (g_Rhub g <> nth 0 (g_r g) 0 -> nth 0 (b_r b) 0 = nth 0 (g_r g) 0) /\
  (g_Rtip g <> nth (n - 1) (g_r g) 0 -> nth (n - 1) (b_r b) 0 = nth (n - 1) (g_r g) 0).
Proof.
  intros g b H HI Hh Ht n. apply construct_stored in H. pose proof (st_len _ _ H) as HL. fold n in HL.
  pose proof (st_r _ _ H) as Er. cbv zeta in Er. split; [apply (st_Rhub _ _ H)|]. split; [apply (st_Rtip _ _ H)|]. clear H.
  set (r := g_r g) in *.
  assert (Hne : r <> []) by (intros E; unfold n in HL; rewrite E in HL; simpl in HL; lia).
  rewrite hd_nth, last_nth in Er by assumption. fold n in Er.
  destruct (nd_hub_range r HI HL) as [Nh1 Nh2]. destruct (nd_tip_range r HI HL) as [Nt1 Nt2].
  rewrite !interp_r in Er by (assumption || lra). fold n in Er, Nh2, Nt2.
  set (h := nth 0 r 0 + nd_hub (r_nd r) * (nth (n - 1) r 0 - nth 0 r 0)) in *.
  set (t := nth 0 r 0 + nd_tip (r_nd r) * (nth (n - 1) r 0 - nth 0 r 0)) in *.
  pose proof (HI 0%nat (n - 1)%nat ltac:(fold n; lia)) as D.
  assert (Hh0 : nth 0 r 0 < h) by (unfold h; nra).
  assert (Ht0 : t < nth (n - 1) r 0) by (unfold t; nra).
  assert (Hht : h < t) by (unfold h, t; nra).
  assert (EL : length (b_r b) = n).
  { rewrite Er. destruct (reqb _ _); rewrite ?set_last_length; destruct (reqb _ _); rewrite ?set_first_length; reflexivity. }
  assert (EN : forall i, (i < n)%nat -> nth i (b_r b) 0 =
    if andb (reqb (g_Rtip g) (nth (n - 1) r 0)) (Nat.eqb (S i) n) then t
    else if andb (reqb (g_Rhub g) (nth 0 r 0)) (Nat.eqb i 0) then h else nth i r 0).
  { intros i Hi. rewrite Er. destruct (reqb (g_Rtip g) (nth (n - 1) r 0)); cbn [andb].
    - rewrite nth_set_last by (destruct (reqb _ _); rewrite ?set_first_length; assumption).
      replace (length (if reqb (g_Rhub g) (nth 0 r 0) then set_first h r else r)) with n
        by (destruct (reqb _ _); rewrite ?set_first_length; reflexivity).
      destruct (Nat.eqb (S i) n); [reflexivity|].
      destruct (reqb (g_Rhub g) (nth 0 r 0)); cbn [andb]; [rewrite nth_set_first by assumption|]; reflexivity.
    - destruct (reqb (g_Rhub g) (nth 0 r 0)); cbn [andb]; [rewrite nth_set_first by assumption|]; reflexivity. }
  clear Er. clearbody h t. split; [exact EL|].
  assert (P0 : nth 0 (b_r b) 0 = if reqb (g_Rhub g) (nth 0 r 0) then h else nth 0 r 0).
  { rewrite EN by lia. destruct (Nat.eqb_spec 1 n); [lia|]. rewrite andb_false_r. rewrite andb_true_r. reflexivity. }
  assert (Pn : nth (n - 1) (b_r b) 0 = if reqb (g_Rtip g) (nth (n - 1) r 0) then t else nth (n - 1) r 0).
  { rewrite EN by lia. destruct (Nat.eqb_spec (S (n - 1)) n); [|lia]. rewrite andb_true_r.
    destruct (Nat.eqb_spec (n - 1) 0); [lia|]. rewrite andb_false_r. reflexivity. }
  assert (Pm : forall i, (0 < i < n - 1)%nat -> nth i (b_r b) 0 = nth i r 0).
  { intros i Hi. rewrite EN by lia. destruct (Nat.eqb_spec (S i) n); [lia|]. destruct (Nat.eqb_spec i 0); [lia|].
    rewrite !andb_false_r. reflexivity. }
  assert (B0 : nth 0 r 0 <= nth 0 (b_r b) 0 <= h) by (rewrite P0; destruct (reqb (g_Rhub g) (nth 0 r 0)); lra).
  assert (Bn : t <= nth (n - 1) (b_r b) 0 <= nth (n - 1) r 0) by (rewrite Pn; destruct (reqb (g_Rtip g) (nth (n - 1) r 0)); lra).
  split.
  { intros i j Hij. rewrite EL in Hij.
    destruct (Nat.eq_dec i 0) as [->|Hi0].
    - destruct (Nat.eq_dec j (n - 1)) as [->|Hj]; [lra|].
      rewrite (Pm j) by lia. assert (nth 1 r 0 <= nth j r 0) by (apply increasing_le; [exact HI|fold n; lia]). lra.
    - destruct (Nat.eq_dec j (n - 1)) as [->|Hj].
      + rewrite (Pm i) by lia. assert (nth i r 0 <= nth (n - 2) r 0) by (apply increasing_le; [exact HI|fold n; lia]). lra.
      + rewrite (Pm i), (Pm j) by lia. apply HI. fold n. lia. }
  split; [rewrite P0; destruct (reqb (g_Rhub g) (nth 0 r 0)) eqn:E; rb_hyps; [lra|]|].
  { destruct (Rle_lt_or_eq_dec _ _ Hh); [assumption|contradiction]. }
  split; [rewrite Pn; destruct (reqb (g_Rtip g) (nth (n - 1) r 0)) eqn:E; rb_hyps; [lra|]|].
  { destruct (Rle_lt_or_eq_dec _ _ Ht) as [|e]; [assumption|]. symmetry in e. contradiction. }
  split; [exact Pm|]. split.
  - intros Hx. rewrite P0. apply reqb_false in Hx. rewrite Hx. reflexivity.
  - intros Hx. rewrite Pn. apply reqb_false in Hx. rewrite Hx. reflexivity.
Qed.

(** C32, the part that holds. *)
Lemma set_last_removelast x l : removelast (set_last x l) = removelast l.
Proof. destruct l; [reflexivity|]. unfold set_last. apply removelast_last. Qed.

Lemma precurve_kept : forall g b l, construct g = Ok b -> g_precurve g = Some l ->
  removelast (b_precurve b) = removelast l /\ (g_precurveTip g <> last l 0 -> b_precurve b = l).
Proof.
  intros g b l H El. apply construct_stored in H. rewrite (st_pc _ _ H), (st_pct _ _ H), El. cbv zeta.
  destruct (reqb _ _) eqn:E; rb_hyps; [rewrite set_last_removelast|]; split; auto. intros K; contradiction.
Qed.

Lemma presweep_kept : forall g b l, construct g = Ok b -> g_presweep g = Some l ->
  removelast (b_presweep b) = removelast l /\ (g_presweepTip g <> last l 0 -> b_presweep b = l).
Proof.
  intros g b l H El. apply construct_stored in H. rewrite (st_ps _ _ H), (st_pst _ _ H), El. cbv zeta.
  destruct (reqb _ _) eqn:E; rb_hyps; [rewrite set_last_removelast|]; split; auto. intros K; contradiction.
Qed.

Lemma set_last_const r : set_last 0 (map (fun _ : R => 0) r) = map (fun _ => 0) r.
Proof.
  destruct r as [|a r]; [reflexivity|]. change (map (fun _ : R => 0) (a :: r)) with (0 :: map (fun _ : R => 0) r).
  set (l := map (fun _ : R => 0) r). unfold set_last.
  replace [0] with [last (0 :: l) 0]; [symmetry; apply app_removelast_last; discriminate|].
  apply (f_equal (fun x => [x])). unfold l. clear. revert r. induction r as [|b r IH]; [reflexivity|]. exact IH.
Qed.

Lemma interp_zeros g : increasing (g_r g) -> (2 <= length (g_r g))%nat -> forall x,
  interp x (r_nd (g_r g)) (map (fun _ => 0) (g_r g)) = 0.
Proof.
  intros HI HL x. replace (map (fun _ : R => 0) (g_r g)) with (map (fun _ : R => 0) (r_nd (g_r g)))
    by (unfold r_nd; rewrite map_map; reflexivity).
  apply interp_const; [apply r_nd_increasing; assumption|]. intros E. apply (f_equal (@length R)) in E.
  rewrite r_nd_length in E. simpl in E. lia.
Qed.

Lemma no_curve_zero : forall g b, construct g = Ok b -> increasing (g_r g) ->
  (g_precurve g = None -> b_precurve b = map (fun _ => 0) (g_r g) /\ b_precurveTip b = 0) /\
  (g_presweep g = None -> b_presweep b = map (fun _ => 0) (g_r g) /\ b_presweepTip b = 0).
Proof.
  intros g b H HI. apply construct_stored in H. pose proof (st_len _ _ H) as HL.
  split; intros E; [rewrite (st_pc _ _ H), (st_pct _ _ H), E|rewrite (st_ps _ _ H), (st_pst _ _ H), E]; cbv zeta;
    (split; [|reflexivity]); rewrite interp_zeros by assumption; (destruct (reqb _ _); [apply set_last_const|reflexivity]).
Qed.

(** C32 refuted: stations 1, 2, 3 on a blade of radius 4 with precurve 0, 0, 1 and tip precurve 1. *)
Definition curved_args (af : list (airfoil fl)) : args :=
  mkArgs [1; 2; 3] [1; 1; 1] [0; 0; 0] af (1 / 2) 4 3 1 1 0 0 0 0 80 8 (Some [0; 0; 1]) 1 None 0 (mkOpts true true true true) 1.

Lemma tip_precurve_moved : forall af, exists b, construct (curved_args af) = Ok b /\
  last (g_r (curved_args af)) 0 <> g_Rtip (curved_args af) /\
  exists x, b_precurve b = [0; 0; x] /\ x <> 1.
Proof.
  intros af. unfold construct. cbn [g_r curved_args length Nat.ltb Nat.leb g_precurve g_presweep map curve_error tip_error Nat.eqb andb negb].
  eexists. split; [reflexivity|]. cbn [last g_Rtip b_precurve curved_args g_precurveTip]. split; [lra|].
  replace (reqb 1 1) with true by (symmetry; apply reqb_true; reflexivity).
  eexists. split; [reflexivity|].
  assert (HI : increasing [1; 2; 3]).
  { intros [|[|[|i]]] [|[|[|j]]] Hij; simpl in *; lra || lia. }
  pose proof (r_nd_increasing _ HI ltac:(simpl; lia)) as HN. destruct (nd_tip_range _ HI ltac:(simpl; lia)) as [N1 N2].
  destruct (interp_polygon (nd_tip (r_nd [1; 2; 3])) (r_nd [1; 2; 3]) [0; 0; 1] HN eq_refl ltac:(discriminate)) as (_ & _ & A).
  specialize (A 1%nat ltac:(simpl; lia)). rewrite !nth_r_nd in A by (simpl; lia). cbn [nth length Nat.sub] in A.
  specialize (A ltac:(lra)). intros E. rewrite E in A. lra.
Qed.

(** C27 *)
Lemma constructed_radius : forall g b, construct g = Ok b ->
  let tip := match g_precurve g with Some _ => g_precurveTip g | None => 0 end in
  b_rotorR b = g_Rtip g * cos (radians (g_precone g)) + tip * sin (radians (g_precone g)) /\ b_rho b = g_rho g.
Proof.
  intros g b H. apply construct_stored in H. rewrite (st_R _ _ H), (st_pct _ _ H), (st_rho _ _ H). auto.
Qed.

(** Arrays of the right length raise nothing. *)
Lemma curve_error_same r pct pc pst ps : (0 < length r)%nat -> length pc = length r -> length ps = length r -> curve_error r pct pc pst ps = None.
Proof.
  intros H1 H2 H3. assert (T : forall tip l, length l = length r -> tip_error r tip l = None).
  { intros tip [|x l] HL; [cbn in HL; lia|]. unfold tip_error. rewrite HL, Nat.eqb_refl. reflexivity. }
  unfold curve_error. rewrite !T by assumption. reflexivity.
Qed.

Lemma construct_succeeds : forall g, (2 <= length (g_r g))%nat -> g_precurve g = None -> g_presweep g = None ->
  exists b, construct g = Ok b.
Proof.
  intros g HL H1 H2. unfold construct. destruct (Nat.ltb_spec (length (g_r g)) 2); [lia|]. cbv zeta.
  rewrite H1, H2. unfold curve_error, tip_error. rewrite !map_length, !Nat.eqb_refl. cbn [andb negb].
  destruct (g_r g); [cbn in *; lia|]. cbn [map]. eauto.
Qed.
