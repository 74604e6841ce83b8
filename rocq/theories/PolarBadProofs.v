(** Proofs about polars whose columns do not fit (C95). *)
From Coq Require Import Reals List Bool Arith Lra Lia.
From Verif Require Import Prelim Interp Polar PolarExt InterpSpec PolarSpec PolarBadSpec PolarProofs.
Import ListNotations.
Open Scope R_scope.

Lemma tabulated_dec p : tabulated p \/ ~ tabulated p.
Proof.
  unfold tabulated. destruct (p_alpha p) as [|a l]; [right; tauto|].
  destruct (Nat.eq_dec (length (p_cl p)) (length (a :: l))), (Nat.eq_dec (length (p_cd p)) (length (a :: l))), (Nat.eq_dec (length (p_cm p)) (length (a :: l)));
    (left; split; [discriminate|tauto]) || (right; tauto).
Qed.

Lemma interp_ok xs xp fp : xp <> [] -> length fp = length xp -> exists ys, np_interp xs xp fp = Ok ys.
Proof. intros H1 H2. unfold np_interp. rewrite H2, Nat.eqb_refl. cbn. destruct xp; [congruence|]. eauto. Qed.
Lemma interp_bad xs xp fp : length fp <> length xp -> np_interp xs xp fp = Raise ValueError.
Proof. intros H. unfold np_interp. destruct (Nat.eqb_spec (length xp) (length fp)); [congruence|]. reflexivity. Qed.
Lemma interp_empty xs fp : np_interp xs [] fp = Raise ValueError.
Proof. unfold np_interp. destruct (negb _); reflexivity. Qed.
Lemma interp_either xs xp fp : (exists ys, np_interp xs xp fp = Ok ys /\ xp <> [] /\ length fp = length xp) \/ np_interp xs xp fp = Raise ValueError.
Proof.
  destruct xp as [|x xp]; [right; apply interp_empty|]. destruct (Nat.eq_dec (length fp) (length (x :: xp))) as [E|E]; [left|right; apply interp_bad; exact E].
  destruct (interp_ok xs (x :: xp) fp ltac:(discriminate) E) as (ys & ->). exists ys. split; [reflexivity|]. split; [discriminate|exact E].
Qed.

Lemma amin_either l : (exists m, amin l = Ok m /\ l <> []) \/ amin l = Raise ValueError.
Proof. destruct l; [right; reflexivity|left; eexists; split; [reflexivity|discriminate]]. Qed.
Lemma amax_either l : (exists m, amax l = Ok m /\ l <> []) \/ amax l = Raise ValueError.
Proof. destruct l; [right; reflexivity|left; eexists; split; [reflexivity|discriminate]]. Qed.

Ltac either := match goal with
  | |- context [amin ?l] => destruct (amin_either l) as [(? & -> & ?)| -> ]; cbn [bind]; [|tauto]
  | |- context [amax ?l] => destruct (amax_either l) as [(? & -> & ?)| -> ]; cbn [bind]; [|tauto]
  | |- context [np_interp ?x ?l ?m] => destruct (interp_either x l m) as [(? & -> & ? & ?)| -> ]; cbn [bind]; [|tauto]
  end.

Lemma blend_either p q w : (exists b, polar_blend p q w = Ok b /\ tabulated p /\ tabulated q) \/ polar_blend p q w = Raise ValueError.
Proof.
  unfold polar_blend. cbv zeta. repeat either. left. eexists. split; [reflexivity|]. unfold tabulated. tauto.
Qed.
Lemma blend_ok p q w : tabulated p -> tabulated q -> exists b, polar_blend p q w = Ok b.
Proof.
  intros (A & B & C & D) (A' & B' & C' & D'). unfold polar_blend. cbv zeta.
  destruct (p_alpha p) as [|x l] eqn:E; [congruence|]. destruct (p_alpha q) as [|x' l'] eqn:E'; [congruence|]. cbn [amin amax bind].
  repeat match goal with |- context [np_interp ?x ?l ?m] => destruct (interp_ok x l m) as (? & ->); [discriminate|assumption|]; cbn [bind] end. eauto.
Qed.
Lemma blend_cases p q w :
  (tabulated p /\ tabulated q -> exists b, polar_blend p q w = Ok b) /\
  (~ tabulated p \/ ~ tabulated q -> polar_blend p q w = Raise ValueError).
Proof.
  split; [intros [A B]; apply blend_ok; assumption|]. intros H. destruct (blend_either p q w) as [(b & _ & A & B)|E]; [tauto|exact E].
Qed.

Lemma resample_either xs p : (exists b, resample xs p = Ok b /\ tabulated p) \/ resample xs p = Raise ValueError.
Proof. unfold resample. repeat either. left. eexists. split; [reflexivity|]. unfold tabulated. tauto. Qed.
Lemma resample_good xs p : tabulated p -> exists b, resample xs p = Ok b.
Proof.
  intros (A & B & C & D). unfold resample.
  repeat match goal with |- context [np_interp ?x ?l ?m] => destruct (interp_ok x l m) as (? & ->); [assumption|assumption|]; cbn [bind] end. eauto.
Qed.

Lemma resample_all xs af : (exists bs, mapM (resample xs) af = Ok bs /\ length bs = length af /\ Forall tabulated af) \/ mapM (resample xs) af = Raise ValueError.
Proof.
  induction af as [|p af IH]; [left; exists []; auto|]. cbn [mapM].
  destruct (resample_either xs p) as [(b & -> & T)| -> ]; cbn [bind]; [|right; reflexivity].
  destruct IH as [(bs & -> & L & F)| -> ]; cbn [bind]; [|right; reflexivity]. left. eexists. split; [reflexivity|]. split; [cbn; congruence|constructor; assumption].
Qed.
Lemma resample_all_ok xs af : Forall tabulated af -> exists bs, mapM (resample xs) af = Ok bs /\ length bs = length af.
Proof.
  induction 1 as [|p af T F IH]; [exists []; auto|]. cbn [mapM]. destruct (resample_good xs p T) as (b & ->). destruct IH as (bs & -> & L). cbn [bind].
  eexists. split; [reflexivity|]. cbn. congruence.
Qed.
Lemma common_cases af alpha : af <> [] ->
  (Forall tabulated af -> exists af', interpToCommonAlpha af alpha = Ok af') /\
  (Exists (fun p => ~ tabulated p) af -> interpToCommonAlpha af alpha = Raise ValueError).
Proof.
  intros Hne. unfold interpToCommonAlpha. cbv zeta. set (xs := match alpha with None => _ | Some a => a end). split.
  - intros F. destruct (resample_all_ok xs af F) as (bs & -> & L). cbn [bind]. unfold mk_airfoil. destruct bs; [destruct af; [congruence|discriminate]|eauto].
  - intros X. destruct (resample_all xs af) as [(bs & _ & _ & F)| -> ]; [|reflexivity]. exfalso. rewrite Forall_forall in F. rewrite Exists_exists in X.
    destruct X as (p & I & N). exact (N (F p I)).
Qed.
Lemma grid_bad af : af <> [] -> Exists (fun p => ~ tabulated p) af -> createDataGrid af = Raise ValueError.
Proof. intros H X. unfold createDataGrid. rewrite (proj2 (common_cases af None H) X). reflexivity. Qed.

(** ** Extrapolation *)
Lemma extrapolate_empty p cdmax AR cdmin n : 0 <= cdmin ->
  (p_cd p = [] -> extrapolate p cdmax AR cdmin n = Raise ValueError) /\
  (p_cd p <> [] -> p_alpha p = [] -> extrapolate p cdmax AR cdmin n = Raise IndexError).
Proof.
  intros H. unfold extrapolate. replace (rltb cdmin 0) with false by (symmetry; apply rltb_false; lra). cbv zeta. split.
  - intros ->. reflexivity.
  - intros H1 H2. destruct (p_cd p); [congruence|]. cbn [amax bind]. rewrite H2. reflexivity.
Qed.

Lemma extrapolate_single Re a c d m cdmax AR cdmin n : 0 <= cdmin -> -90 <= a <= 90 -> m <> 0 ->
  extrapolate (mkPolar Re [a] [c] [d] [m]) cdmax AR cdmin n = Raise IndexError.
Proof.
  intros H1 H2 H3. pose proof PI_RGT_0 as HP. unfold extrapolate. replace (rltb cdmin 0) with false by (symmetry; apply rltb_false; lra).
  cbn [p_alpha p_cl p_cd p_cm p_Re amax bind fold_left last nth]. cbv zeta.
  replace (rltb (PI / 2) (radians a)) with false by (symmetry; apply rltb_false; unfold radians; nra).
  replace (rltb (radians a) (- PI / 2)) with false by (symmetry; apply rltb_false; unfold radians; nra).
  match goal with |- bind ?x _ = _ => replace x with (@Raise (list R) IndexError); [reflexivity|] end.
  unfold cm_extrapolated. cbv zeta. cbn [p_alpha p_cl p_cd p_cm existsb].
  replace (reqb m 0) with false by (symmetry; apply reqb_false; exact H3). cbn [negb orb].
  unfold cm0. cbn [p_alpha p_cl p_cm cm0_scan]. reflexivity.
Qed.
