(** Property theorems about the extrapolated moment coefficient beyond the data: C92. *)
From Coq Require Import Reals List Bool ZArith Lra Lia.
From Verif Require Import Prelim Interp Polar PolarExt InterpSpec PolarSpec PolarProofs PolarExtFacts PropsPolarExt MomentSpec MomentProofs.
Import ListNotations.
Open Scope R_scope.

(** C92. Beyond the data the moment runs linearly between its values at the multiples of ten: those of the normal force
    on an arm that moves to the quarter chord at 90 degrees, mirrored for negative angles, then the fixed values at 170 and
    180 degrees; from the end of the data to the next multiple of ten it runs linearly from the data's moment. *)
Theorem C92_moment_beyond_data : forall p cdmax AR cdmin n,
  extendable p -> moment_regular p -> some_moment p -> 0 <= cdmin -> (2 <= n)%nat ->
  0 < final (p_alpha p) < 90 -> -90 < first (p_alpha p) ->
  exists b m0 v, extrapolate p cdmax AR cdmin n = Ok b /\ zero_lift_moment p m0 /\
    (forall t, multiple_of_ten t -> -180 <= t <= 180 -> node_moment p b m0 t (v t)) /\
    forall i, (i < length (p_alpha b))%nat ->
      let x := nth i (p_alpha b) 0 in
      let y := nth i (p_cm b) 0 in
      (forall t, multiple_of_ten t -> t <= x < t + 10 ->
         final (p_alpha p) <= t /\ t + 10 <= 180 \/ -180 <= t /\ t + 10 <= first (p_alpha p) ->
         on_line t (v t) (t + 10) (v (t + 10)) x y) /\
      (x = 180 -> y = v 180) /\
      (forall c, multiple_of_ten c -> final (p_alpha p) < c < final (p_alpha p) + 10 -> final (p_alpha p) <= x < c ->
         on_line (final (p_alpha p)) (final (p_cm p)) c (v c) x y) /\
      (forall c, multiple_of_ten c -> first (p_alpha p) - 10 < c < first (p_alpha p) -> c <= x < first (p_alpha p) ->
         on_line c (v c) (first (p_alpha p)) (first (p_cm p)) x y).
Proof. exact moment_law. Qed.
Print Assumptions C92_moment_beyond_data.
Example C92_example : extendable ex_e /\ moment_regular ex_e /\ some_moment ex_e /\
  0 < final (p_alpha ex_e) < 90 /\ -90 < first (p_alpha ex_e).
Proof.
  split; [apply ex_e_ok|]. split; [apply ex_e_reg|]. split; [exists (1/50); split; [left; reflexivity|lra]|].
  unfold final, first. cbn [p_alpha ex_e length nth Nat.sub]. lra.
Qed.

(** C92. The moments at 180 degrees are 0. *)
Theorem C92_moment_at_180 : forall p cdmax AR cdmin n,
  extendable p -> moment_regular p -> some_moment p -> 0 <= cdmin -> (2 <= n)%nat ->
  0 < final (p_alpha p) < 90 -> -90 < first (p_alpha p) ->
  exists b, extrapolate p cdmax AR cdmin n = Ok b /\ first (p_alpha b) = -180 /\ final (p_alpha b) = 180 /\
    first (p_cm b) = 0 /\ final (p_cm b) = 0.
Proof.
  intros p cdmax AR cdmin n X R S Hm Hn Ha Hb.
  destruct (C92_moment_beyond_data p cdmax AR cdmin n X R S Hm Hn Ha Hb) as (b & m0 & v & E & _ & HN & H).
  destruct (C50_extrapolate_structure p cdmax AR cdmin n X (proj2 Ha) Hm Hn) as (b' & k & m & E' & _ & F & L & B & _ & _ & _ & Len).
  rewrite E in E'. apply ok_inj in E'. subst b'. exists b. split; [exact E|]. split; [exact F|]. split; [exact L|].
  assert (Lb : (0 < length (p_alpha b))%nat).
  { destruct (p_alpha b) as [|q l]; [exfalso; unfold first in F; simpl in F; lra|simpl; lia]. }
  pose proof (Len CM) as LC. cbn [col] in LC.
  assert (N180 : forall t, t = 180 \/ t = -180 -> v t = 0).
  { intros t Ht. destruct (HN t) as (_ & Q); [destruct Ht as [->| ->]; [exists 18%Z|exists (-18)%Z]; lra|destruct Ht; lra|].
    destruct X as (_ & Xl & _). destruct Q as (cl & cd & _ & _ & T & _); [destruct Ht; lra|]. apply T, Ht. }
  split.
  - destruct (H 0%nat Lb) as (Q & _). fold (first (p_alpha b)) in Q. fold (first (p_cm b)) in Q. rewrite F in Q.
    specialize (Q (-180)). unfold on_line in Q. rewrite (N180 (-180)) in Q by (right; reflexivity).
    assert (M : multiple_of_ten (-180)) by (exists (-18)%Z; lra). destruct X as (_ & Xl & _).
    specialize (Q M ltac:(lra) ltac:(right; lra)). nra.
  - destruct (H (length (p_alpha b) - 1)%nat ltac:(lia)) as (_ & Q & _). fold (final (p_alpha b)) in Q.
    rewrite <- LC in Q. fold (final (p_cm b)) in Q. rewrite Q by exact L. apply N180. left; reflexivity.
Qed.
Print Assumptions C92_moment_at_180.

(** C92. Without a moment in the data there is none in the extrapolation. *)
Theorem C92_no_moment : forall p cdmax AR cdmin n b, extendable p -> Forall (fun c => c = 0) (p_cm p) -> 0 <= cdmin ->
  extrapolate p cdmax AR cdmin n = Ok b -> Forall (fun c => c = 0) (p_cm b).
Proof. exact no_moment. Qed.
Print Assumptions C92_no_moment.
Example C92_no_moment_example : exists b, extendable (mkPolar 1000000 [-4; 12] [-1/2; 1] [1/100; 4/100] [0; 0]) /\
  extrapolate (mkPolar 1000000 [-4; 12] [-1/2; 1] [1/100; 4/100] [0; 0]) (13/10) None (1/1000) 15 = Ok b.
Proof.
  assert (X : extendable (mkPolar 1000000 [-4; 12] [-1/2; 1] [1/100; 4/100] [0; 0])).
  { unfold extendable, wf_polar, first, final. cbn [p_alpha p_cl p_cd p_cm length nth Nat.sub].
    repeat split; try lra; try discriminate; [|left; repeat constructor].
    intros i j Hij. cbn [length] in Hij. assert (i = 0 /\ j = 1)%nat as [-> ->] by lia. cbn. lra. }
  destruct (C50_extrapolate_structure _ (13/10) None (1/1000) 15 X) as (b & _ & _ & E & _); try lra; try lia;
    [unfold final; cbn; lra|]. exists b. auto.
Qed.
