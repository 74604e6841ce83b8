(** Property theorems about polars whose columns do not fit: C95. *)
From Coq Require Import Reals List Bool Arith Lra Lia.
From Verif Require Import Prelim Interp Polar PolarExt InterpSpec PolarSpec PolarBadSpec PolarBadProofs.
Import ListNotations.
Open Scope R_scope.

(** ** C95: unusable polars *)
(** Polar.blend returns for polars with angles and fitting columns, in any order of the angles, and raises a ValueError for
    all others. *)
Theorem C95_blend : forall p q w,
  (tabulated p /\ tabulated q -> exists b, polar_blend p q w = Ok b) /\
  (~ tabulated p \/ ~ tabulated q -> polar_blend p q w = Raise ValueError).
Proof. exact blend_cases. Qed.
Print Assumptions C95_blend.

(** So do Airfoil.interpToCommonAlpha, on its own grid or on a given one, and createDataGrid. *)
Theorem C95_common_alpha : forall af alpha, af <> [] ->
  (Forall tabulated af -> exists af', interpToCommonAlpha af alpha = Ok af') /\
  (Exists (fun p => ~ tabulated p) af -> interpToCommonAlpha af alpha = Raise ValueError /\ createDataGrid af = Raise ValueError).
Proof.
  intros af alpha H. split; [exact (proj1 (common_cases af alpha H))|]. intros X.
  split; [exact (proj2 (common_cases af alpha H) X)|exact (grid_bad af H X)].
Qed.
Print Assumptions C95_common_alpha.

(** Polar.extrapolate needs a drag coefficient and an angle; with a single row that has a moment it cannot find the moment
    at zero lift. *)
Theorem C95_extrapolate : forall cdmax AR cdmin n, 0 <= cdmin ->
  (forall p, p_cd p = [] -> extrapolate p cdmax AR cdmin n = Raise ValueError) /\
  (forall p, p_cd p <> [] -> p_alpha p = [] -> extrapolate p cdmax AR cdmin n = Raise IndexError) /\
  (forall Re a c d m, -90 <= a <= 90 -> m <> 0 -> extrapolate (mkPolar Re [a] [c] [d] [m]) cdmax AR cdmin n = Raise IndexError).
Proof.
  intros cdmax AR cdmin n H. split; [|split].
  - intros p. exact (proj1 (extrapolate_empty p cdmax AR cdmin n H)).
  - intros p. exact (proj2 (extrapolate_empty p cdmax AR cdmin n H)).
  - intros Re a c d m. exact (extrapolate_single Re a c d m cdmax AR cdmin n H).
Qed.
Print Assumptions C95_extrapolate.

(** Two angles out of order; a missing drag coefficient. *)
Example C95_example : tabulated (mkPolar 1 [4; 0] [1; 0] [1; 1] [0; 0]) /\ ~ tabulated (mkPolar 1 [0; 4] [0; 1] [1] [0; 0]) /\ ~ tabulated (mkPolar 1 [] [] [] []).
Proof. unfold tabulated. cbn. split; [|split]; [|intros (_ & _ & H & _); discriminate H|intros (H & _); congruence]. repeat split; discriminate. Qed.
