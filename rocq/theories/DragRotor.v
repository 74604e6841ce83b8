(** A rotor without lift (C119, C120). *)
From Coquelicot Require Import Coquelicot.
From Coq Require Import Reals Bool Arith List Lra Lia Psatz.
From Verif Require Import Prelim Num CSystemSpec Interp Bem BemGeomSpec BemGeomProofs Blade IndSpec IndProofs FlProofs BladeSpec StationProofs StationLoads InterpSpec ConstructProofs BladeProofs
  SectorProofs SimilaritySpec SimilarityProofs SymmetryProofs BladeDvProofs InverseForward PolarProofs TwistProofs BetzSpec BetzRotor ThrustRotor LocalProofs DragSpec DragStation.
Import ListNotations.
Open Scope R_scope.

(** The station solved for one entry of the answer. *)
Lemma section_solve npi bq b U Om p az ls i l : b_inverse b = false -> Om <> 0 -> section_loads npi bq b U Om p az = Ok ls -> nth_error ls i = Some l ->
  (i < length (b_r b))%nat /\ exists r c af th, nth_error (b_r b) i = Some r /\ In c (b_chord b) /\ In af (b_af b) /\ nth_error (b_theta b) i = Some th /\
    solve_station npi bq (rotor_of b (radians p)) true
      (mkSect (Fin r) (Fin c) th af (Fin (fst (wind b U Om (radians az)) i)) (Fin (snd (wind b U Om (radians az)) i))) = Ok l.
Proof.
  intros Hi HO SL El. assert (Hl : (i < length (b_r b))%nat).
  { rewrite <- (loads_length _ _ _ _ _ _ _ _ SL). apply nth_error_Some. rewrite El. discriminate. }
  split; [exact Hl|]. destruct (loads_nth _ _ _ _ _ _ _ _ i SL Hl) as ((th0 & l0) & S & El'). rewrite El in El'. injection El'; intros <-. clear El'.
  unfold station_i in S. cbv zeta in S. rewrite Hi in S. replace (reqb Om 0) with false in S by (symmetry; apply reqb_false; exact HO). cbn [negb] in S.
  apply bind_ok in S. destruct S as (r & F1 & S). apply bind_ok in S. destruct S as (c & F2 & S).
  apply bind_ok in S. destruct S as (af & F3 & S). apply bind_ok in S. destruct S as (th' & F4 & S).
  apply bind_ok in S. destruct S as (l1 & ES & S). apply ok_inj in S. apply pair_equal_spec in S. destruct S as (_ & <-).
  assert (G : forall X (q : list X) x, pyget q i = Ok x -> nth_error q i = Some x).
  { intros X q x E. unfold pyget in E. destruct (nth_error q i); [apply ok_inj in E; congruence|discriminate]. }
  apply G in F1, F2, F3, F4. exists r, c, af, th'.
  exact (conj F1 (conj (nth_error_In _ _ F2) (conj (nth_error_In _ _ F3) (conj F4 ES)))).
Qed.

Lemma between l lo hi i : increasing l -> lo < nth 0 l 0 -> nth (length l - 1) l 0 < hi -> (i < length l)%nat -> lo < nth i l 0 < hi.
Proof.
  intros I H1 H2 Hi. split.
  - destruct i as [|i]; [exact H1|]. pose proof (I 0%nat (S i) ltac:(lia)). lra.
  - destruct (Nat.eq_dec i (length l - 1)) as [->|Hn]; [exact H2|]. pose proof (I i (length l - 1)%nat ltac:(lia)). lra.
Qed.

(** The section loads of a blade without lift. *)
Lemma drag_section npi bq g b U Om p az ls i l Tp : 3 < npi < PI -> root_inside bq -> finds_zeros bq ->
  construct g = Ok b -> in_order g -> 0 <= g_rho g -> (forall c, In c (g_chord g) -> 0 <= c) -> Forall no_lift (g_af g) -> Om <> 0 ->
  section_loads npi bq b U Om p az = Ok ls -> nth_error ls i = Some l -> rep (o_Tp l) Tp ->
  let Vx := fst (wind b U Om (radians az)) i in let Vy := snd (wind b U Om (radians az)) i in
  (0 < Vx * Vy -> Tp <= 0) /\ (Vx * Vy < 0 -> losses (g_opts g) -> wakerotation (g_opts g) = true -> 0 <= Tp).
Proof.
  intros Hn Hb Hz HC (I & Hh & Ht & HB) Hrho Hch Haf HO SL El QT Vx Vy.
  destruct (construct_ok g b HC) as (Ci & Cc & _ & Ca & Cr & _).
  destruct (stations_inside g b HC I ltac:(lra) Ht) as (_ & _ & L & I' & S1 & S2 & _).
  destruct (section_solve npi bq b U Om p az ls i l Ci HO SL El) as (Hi & r & c & af & th & E1 & E2 & E3 & _ & ES).
  rewrite Cr in ES. fold Vx Vy in ES.
  pose proof (between _ (g_Rhub g) (g_Rtip g) i I' S1 ltac:(rewrite L; exact S2) Hi) as Hr. rewrite (nth_of_error _ _ _ 0 E1) in Hr.
  assert (H1 : 0 < g_Rhub g < r) by lra. assert (H2 : r < g_Rtip g) by lra.
  assert (H3 : 0 <= c) by (apply Hch; rewrite <- Cc; exact E2).
  assert (H4 : no_lift af) by (apply (proj1 (Forall_forall _ _) Haf); rewrite <- Ca; exact E3).
  set (rt := mkRotor _ _ _ _ _ _ _ _) in ES. set (sc := mkSect _ _ _ _ _ _) in ES.
  split.
  - exact (drag_brakes npi bq rt sc l r c Vx Vy (g_Rhub g) (g_Rtip g) (g_rho g) Tp Hn Hb Hz eq_refl eq_refl eq_refl eq_refl eq_refl eq_refl eq_refl HB H1 H2 H3 Hrho H4 ES QT).
  - exact (drag_drives npi bq rt sc l r c Vx Vy (g_Rhub g) (g_Rtip g) (g_rho g) Tp Hn Hb Hz eq_refl eq_refl eq_refl eq_refl eq_refl eq_refl eq_refl HB H1 H2 H3 Hrho H4 ES QT).
Qed.

Lemma disc_in_order g : flat_disc g -> in_order g.
Proof. intros (_ & _ & _ & _ & _ & _ & H1 & H2 & H3 & H4). exact (conj H1 (conj H2 (conj H3 H4))). Qed.

(** The power of a flat rotor without lift. *)
Lemma drag_power npi bq g b conds b' outs w i U Om p y : 3 < npi < PI -> root_inside bq -> finds_zeros bq ->
  construct g = Ok b -> flat_disc g -> 0 <= g_rho g -> (forall c, In c (g_chord g) -> 0 <= c) -> Forall no_lift (g_af g) ->
  evaluate npi bq b conds = Ok (b', outs, w) -> nth_error conds i = Some (U, Om, p) -> nth_error outs i = Some (Some y) ->
  Om <> 0 -> 0 < U * Om \/ (losses (g_opts g) /\ wakerotation (g_opts g) = true) -> (0 < U -> y_P y <= 0) /\ (U < 0 -> 0 <= y_P y).
Proof.
  intros Hn Hb Hz HC HF Hrho Hch Haf HE Ec Ey HO HL. pose proof PI_RGT_0 as HPI.
  destruct (flat_construct g b HC HF) as (F & _).
  destruct (flat_totals _ _ _ _ _ _ _ _ _ _ _ _ F HE Ec Ey) as (ls & Np & Tp & SL & QN & QT & EP & _).
  assert (HB : 1 <= INR (b_B b)) by (apply (le_INR 1); exact (fl_B _ F)).
  assert (ST : forall j, (j < length (b_r b))%nat -> U <> 0 -> U * (Om * PI / 30 * nth j (b_r b) 0 * nth j Tp 0) <= 0).
  { intros j Hj HU. pose proof (flat_station b j F Hj) as Hr. pose proof (fl_hub _ F) as Hh.
    destruct (le_lt_dec (length Tp) j) as [Hl|Hl]; [rewrite (nth_overflow Tp) by lia; lra|].
    destruct (Forall2_nth_r _ _ _ j 0 _ QT Hl eq_refl) as (l & El & Ql).
    destruct (drag_section npi bq g b U Om p 0 ls j l (nth j Tp 0) Hn Hb Hz HC (disc_in_order g HF) Hrho Hch Haf HO SL El Ql) as (D1 & D2). cbv zeta in D1, D2.
    destruct (flat_wind b U Om (radians 0) j F Hj) as (W1 & W2). rewrite W1, W2 in D1, D2.
    set (t := nth j Tp 0) in *. set (r := nth j (b_r b) 0) in *. assert (0 < r) by lra.
    replace (U * (Om * PI / 30 * r)) with (U * Om * (PI / 30 * r)) in D1, D2 by field.
    assert (K : 0 < PI / 30 * r) by (apply Rmult_lt_0_compat; lra).
    replace (U * (Om * PI / 30 * r * t)) with (U * Om * (PI / 30 * r) * t) by field.
    destruct (Rlt_le_dec 0 (U * Om)) as [HS|HS].
    - assert (M : 0 < U * Om * (PI / 30 * r)) by (apply Rmult_lt_0_compat; assumption). specialize (D1 M). nra.
    - assert (HS' : U * Om < 0). { destruct (Req_dec (U * Om) 0) as [Z|Z]; [|lra]. apply Rmult_integral in Z. tauto. }
      destruct HL as [HL|(HL & HW)]; [lra|].
      assert (M : U * Om * (PI / 30 * r) < 0) by nra. specialize (D2 M HL HW). nra. }
  rewrite EP. split; intros HU.
  - assert (E : Om * PI / 30 * CSystemSpec.c1 (blade_moment b Np Tp) <= 0 * CSystemSpec.c1 (blade_force b Np Tp)).
    { apply blade_energy; [exact F|]. intros j Hj. specialize (ST j Hj ltac:(lra)). rewrite Rmult_0_l.
      apply Rmult_le_reg_l with U; [exact HU|]. rewrite Rmult_0_r. exact ST. }
    assert (0 <= INR (b_B b) * - (Om * PI / 30 * CSystemSpec.c1 (blade_moment b Np Tp))) by (apply Rmult_le_pos; lra). lra.
  - assert (E : - (Om * PI / 30) * CSystemSpec.c1 (blade_moment b Np Tp) <= 0 * CSystemSpec.c1 (blade_force b Np Tp)).
    { apply blade_energy; [exact F|]. intros j Hj. specialize (ST j Hj ltac:(lra)). rewrite Rmult_0_l.
      apply Rmult_le_reg_l with (- U); [lra|]. rewrite Rmult_0_r. lra. }
    apply Rmult_le_pos; lra.
Qed.
