(** The derivatives when the solver finds the only zero of the residual (C37, C64): the angle need not be assumed differentiable. *)
From Coquelicot Require Import Coquelicot.
From Coq Require Import Reals Bool Arith List Lra Lia.
From Verif Require Import Prelim Num Bem BemGeomSpec IndSpec DiffSpec BemDiff DeriveLib Blade BladeDiff BladeDiffSpec
  StationDvProofs BladeDvProofs EvalDvProofs BladeDvExample TrackSpec TrackProofs.
Import ListNotations.
Open Scope R_scope.

(** C37. The eight variables move along curves Y with rates d, and phi s is the only zero of the residual in (lo, hi). Then phi
    is differentiable, and the rate of a load N is the inner product of [total gN gR] with d. *)
Theorem C37_angle_moves : forall (Res : (nat -> R) -> R) (x gR : nat -> R) (Y : nat -> R -> R) (phi : R -> R) (t lo hi : R) (d : nat -> R),
  gradient 9 Res x gR -> gR 0%nat <> 0 -> x 0%nat = phi t -> (forall k, (k < 8)%nat -> Y k t = x (S k)) -> curves_derive 8 Y t d ->
  locally t (fun s => only_zero (fun p => Res (with_phi p (at_time Y s))) lo hi (phi s)) ->
  is_derive phi t (- inner 8 (fun k => gR (S k)) d / gR 0%nat).
Proof. exact angle_moves. Qed.
Print Assumptions C37_angle_moves.

Theorem C37_unique_zero : forall (N Res : (nat -> R) -> R) (x gN gR : nat -> R) (Y : nat -> R -> R) (phi : R -> R) (t lo hi : R) (d : nat -> R),
  gradient 9 N x gN -> gradient 9 Res x gR -> gR 0%nat <> 0 -> x 0%nat = phi t -> (forall k, (k < 8)%nat -> Y k t = x (S k)) ->
  curves_derive 8 Y t d -> locally t (fun s => only_zero (fun p => Res (with_phi p (at_time Y s))) lo hi (phi s)) ->
  is_derive (fun s => N (with_phi (phi s) (at_time Y s))) t (inner 8 (total gN gR) d).
Proof. exact total_tracks. Qed.
Print Assumptions C37_unique_zero.

Example C37_unique_example : (* Res = x0^3 + x0 - x1, N = x0 * x1: at x1 = 2 the zero is 1 and moves with rate 1/4, N with rate 3/2 *)
  exists phi : R -> R,
  let Res := fun y : nat -> R => y 0%nat ^ 3 + y 0%nat - y 1%nat in let N := fun y : nat -> R => y 0%nat * y 1%nat in
  let x := fun i => nth i [1; 2] 0 in let gR := fun i => nth i [4; -1] 0 in let gN := fun i => nth i [2; 1] 0 in
  let Y := fun i s => match i with 0%nat => s | _ => 0 end in let d := fun i => nth i [1] 0 in
  gradient 9 N x gN /\ gradient 9 Res x gR /\ gR 0%nat <> 0 /\ x 0%nat = phi 2 /\ (forall k, (k < 8)%nat -> Y k 2 = x (S k)) /\
  curves_derive 8 Y 2 d /\ locally 2 (fun s => only_zero (fun p => Res (with_phi p (at_time Y s))) 0 2 (phi s)) /\
  - inner 8 (fun k => gR (S k)) d / gR 0%nat = 1 / 4 /\ inner 8 (total gN gR) d = 3 / 2.
Proof.
  assert (C : forall s q, continuous (fun p : R => p ^ 3 + p - s) q).
  { intros s q. apply (ex_derive_continuous (V := R_NormedModule)). auto_derive. exact I. }
  assert (Z : forall s, exists p, (0 < s < 4 -> 0 < p < 2 /\ p ^ 3 + p - s = 0)).
  { intros s. destruct (Rlt_dec 0 s) as [A|A]; [|exists 0; lra]. destruct (Rlt_dec s 4) as [B|B]; [|exists 0; lra].
    destruct (sign_change_zero (fun p => p ^ 3 + p - s) 0 2) as (z & H & E).
    - lra.
    - intros; apply C.
    - assert (0 < s * (10 - s)) by (apply Rmult_lt_0_compat; lra). cbn. lra.
    - rewrite Rmin_left, Rmax_right in H by lra. exists z. intros _. split; [|exact E].
      split; [destruct (Req_dec z 0); [subst; lra|lra]|destruct (Req_dec z 2); [subst; lra|lra]]. }
  assert (U : forall s p q, p ^ 3 + p - s = 0 -> q ^ 3 + q - s = 0 -> q = p).
  { intros s p q Hp Hq. assert (F : (q - p) * (q ^ 2 + q * p + p ^ 2 + 1) = 0) by (ring_simplify; lra).
    apply Rmult_integral in F. destruct F as [F|F]; [lra|]. nra. }
  (* the zero, by definite description from its uniqueness *)
  set (phi := fun s => match Rlt_dec 0 s with left _ => Glb_Rbar (fun p => p ^ 3 + p - s = 0) | right _ => Finite 0 end).
  assert (P : forall s, 0 < s < 4 -> 0 < real (phi s) < 2 /\ real (phi s) ^ 3 + real (phi s) - s = 0).
  { intros s Hs. destruct (Z s) as (z & Hz). destruct (Hz Hs) as (Hr & E). unfold phi. destruct (Rlt_dec 0 s) as [_|]; [|lra].
    assert (Glb_Rbar (fun p => p ^ 3 + p - s = 0) = Finite z) as ->; [|cbn [real]; auto].
    apply is_glb_Rbar_unique. split.
    - intros q Hq. rewrite (U s z q E Hq). cbn. lra.
    - intros b Hb. apply Hb. exact E. }
  exists (fun s => real (phi s)). intros Res N x gR gN Y d.
  refine (conj _ (conj _ (conj _ (conj _ (conj _ (conj _ (conj _ (conj _ _)))))))).
  - intros W t e E HW. pose proof (HW 0%nat ltac:(lia)) as H0. pose proof (HW 1%nat ltac:(lia)) as H1.
    pose proof (E 0%nat ltac:(lia)) as E0. pose proof (E 1%nat ltac:(lia)) as E1.
    unfold N, at_time. der. rewrite E0, E1. unfold x, gN. cbn. ring.
  - intros W t e E HW. pose proof (HW 0%nat ltac:(lia)) as H0. pose proof (HW 1%nat ltac:(lia)) as H1.
    pose proof (E 0%nat ltac:(lia)) as E0. unfold Res, at_time. cbn [pow]. der. rewrite E0. unfold x, gR. cbn. ring.
  - cbn. lra.
  - destruct (P 2 ltac:(lra)) as (_ & E). cbn. symmetry. apply (U 2 1); lra.
  - intros k Hk. do 8 (destruct k as [|k]; [cbn; lra|]). lia.
  - intros k Hk. destruct k as [|k]; [cbn; apply d_id|]. do 7 (destruct k as [|k]; [cbn; apply d_const|]). lia.
  - apply (locally_interval _ 2 0 4); try (cbn; lra). intros s H1 H2. cbn in H1, H2. destruct (P s ltac:(lra)) as (A & E).
    unfold Res, Y, at_time. cbn [with_phi]. split; [exact A|]. split; [exact E|]. split; [|intros; apply C].
    intros q _ Hq. apply (U s); assumption.
  - cbn. field.
  - unfold total. cbn. field.
Qed.

(** C64. The load dictionaries, when at every station the solver returns the only zero of the residual in some interval. *)
Theorem C64_unique_zero : forall npi bq fx (D : R -> design) (t : R) (v : design) Np Tp dNp dTp,
  (2 <= f_n fx)%nat -> design_derive (f_n fx) D t v -> wind_ok fx D t -> radial_ok (f_n fx) (D t) v ->
  (forall i, (i < f_n fx)%nat -> tracking_ok npi bq fx D t i) ->
  distributed_dv npi bq fx (D t) = Ok (Np, Tp, dNp, dTp) ->
  forall i, (i < f_n fx)%nat -> exists l, station_result npi bq fx (D t) i = Ok l /\ Np i = o_Np l /\ Tp i = o_Tp l /\
    is_derive (fun s => blade_Np npi bq fx (D s) i) t (load_rate (f_n fx) dNp v i) /\
    (o_ct l <> 0 -> is_derive (fun s => blade_Tp npi bq fx (D s) i) t (load_rate (f_n fx) dTp v i)).
Proof.
  intros npi bq fx D t v Np Tp dNp dTp Hn HD Hw Hr Ht. apply distributed_rate; try assumption.
  intros i Hi. left. eapply tracking_rotating; try eassumption. apply Ht. exact Hi.
Qed.
Print Assumptions C64_unique_zero.

(** The dictionaries of evaluate: these are the hypotheses of C64_evaluate_dictionaries and C65_coefficient_gradients. *)
Theorem C64_unique_zero_evaluate : forall npi bq fx (D : R -> design) (t : R) (v : design),
  (2 <= f_n fx)%nat -> design_derive (f_n fx) D t v -> sectors_track npi bq fx D t v -> sectors_ok npi bq fx D t v.
Proof. exact track_sectors. Qed.
Print Assumptions C64_unique_zero_evaluate.

Lemma ex_tracking az npi i : (i < 2)%nat -> tracking_ok npi ex_bq ex_fx (fun s => sector_design (ex_D s) az) 10 i.
Proof.
  intros Hi. destruct (ex_rotating az npi 10 i ltac:(lra) Hi) as (A & B & C & phi & _ & L & S1 & G & W).
  assert (E : phi 10 = ex_phi i 10).
  { pose proof (locally_singleton _ _ L) as (E & _). rewrite (ex_solve az npi 10 i) in E by (assumption || lra). congruence. }
  rewrite E in S1, G, W.  refine (conj A (conj B (conj C _))). exists (ex_phi i), 0, (PI / 2).
  refine (conj _ (conj S1 (conj G W))).
  generalize (ex_locally 10 ltac:(lra)). apply filter_imp. intros s Hs. split; [apply (ex_solve az); assumption|].
  pose proof (ex_phi_range s i Hs) as Hp. pose proof (ex_k_bound s i Hs) as Hk. pose proof (ex_pos i) as Hr.
  assert (T : forall q, 0 < q < PI / 2 -> errf (rotor_d ex_fx (sector_design (ex_D s) az)) (sect_d ex_fx (sector_design (ex_D s) az) i) 0 q = 0 ->
    tan q = s / (5 * INR (S i)) / (1 + ex_k s i)).
  { intros q Hq. rewrite (ex_err az) by (assumption || lra). intros Z. assert (0 < cos q) by (apply cos_gt_0; lra).
    unfold tan. assert (F : sin q * (1 + ex_k s i) = cos q * (s / (5 * INR (S i)))) by lra.
    apply (Rmult_eq_reg_r (cos q * (1 + ex_k s i))); [|apply Rgt_not_eq; apply Rmult_lt_0_compat; lra].
    transitivity (sin q * (1 + ex_k s i)); [field; lra|]. rewrite F. field. split; lra. }
  split; [exact Hp|]. split; [apply (ex_root az); assumption|]. split.
  - intros q Hq Z. apply T in Z; [|exact Hq]. unfold ex_phi. rewrite <- Z. symmetry. apply atan_tan. lra.
  - intros q Hq. apply (continuous_ext_loc _ (fun p => sin p * (1 + ex_k s i) - cos p * (s / (5 * INR (S i))))).
    + apply (locally_interval _ q 0 (PI / 2)); try (cbn; lra). intros y H1 H2. cbn in H1, H2. symmetry. apply (ex_err az); [assumption|assumption|lra].
    + apply (ex_derive_continuous (V := R_NormedModule)). auto_derive. exact I.
Qed.

Example C64_unique_example : forall npi, (* the rest is in C64_example *)
  (forall i, (i < 2)%nat -> tracking_ok npi ex_bq ex_fx ex_D 10 i) /\ sectors_track npi ex_bq ex_fx ex_D 10 ex_v.
Proof.
  intros npi. split.
  - intros i Hi. pose proof (ex_tracking 0 npi i Hi) as T. unfold tracking_ok in *. cbv zeta in *.
    destruct T as (A & B & C & phi & lo & hi & L & T). rewrite (sector0 10) in A, T. refine (conj A (conj B (conj C _))).
    exists phi, lo, hi. refine (conj _ T). generalize L. apply filter_imp. intros s. rewrite (sector0 s). exact (fun x => x).
  - destruct (ex_evaluate 4 npi 10 ltac:(lra)) as (_ & (A & B & C) & _). refine (conj A (conj B _)). intros az Haz.
    destruct (C az Haz) as (W & S1). refine (conj W _). intros i Hi. refine (conj (ex_tracking az npi i Hi) _). apply S1. exact Hi.
Qed.
