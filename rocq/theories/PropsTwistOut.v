(** The outputs of CCBladeTwist that C57 and C58 do not mention (C93). *)
From Coq Require Import Reals Bool Arith List Lra Lia.
From Verif Require Import Prelim Num Bem Interp InterpSpec BemDiff Blade BladeSpec FlProofs BladeDiff Component ComponentSpec BladeProofs StationProofs StationLoads PropsStation SectorWitness TwistProofs TwistWitness TwistOutSpec TwistOutProofs.
Import ListNotations.
Open Scope R_scope.

(** ** C93: what compute writes *)
(** CP and CM are the mean coefficients of evaluate, the velocities those of evaluate with NaN replaced by zero, the states
    and coefficients those of distributedAeroLoads at azimuth 0, the loads along the blade are zero, and the four quantities
    at the points of the optimisation grid are the values there of the polygon over the span fraction. *)
Theorem C93_twist_outputs : forall npi bq alpha1 smooth o i prev y, let r := g_r (wi_args i) in
  twist_compute npi bq alpha1 smooth o i prev = Ok y ->
  exists b b1 ls b2 y0 W, twist_design npi bq alpha1 smooth o i = Ok b /\
    distributedAeroLoads npi bq b (wi_Uhub i) (twist_Omega i) (wi_pitch i) 0 = Ok (b1, ls) /\
    evaluate npi bq b1 [(wi_Uhub i, twist_Omega i, wi_pitch i)] = Ok (b2, [y0], W) /\
    wt_CP y = option_map y_CP y0 /\ wt_CM y = option_map y_CMb y0 /\ without_nan W (wt_W y) /\
    length ls = length r /\ length (wt_a y) = length r /\ length (wt_ap y) = length r /\
    (forall k l, nth_error ls k = Some l ->
       nth k (wt_a y) NaN = o_a l /\ nth k (wt_ap y) NaN = o_ap l /\ nth k (wt_alpha y) NaN = o_alpha l /\
       nth k (wt_cl y) NaN = o_cl l /\ nth k (wt_cd y) NaN = o_cd l /\
       (forall N, rep (o_Np l) N -> rep (nth k (wt_Pz_b y) NaN) 0) /\
       (length (wt_theta y) = length r -> rep (nth k (wt_Pz_af y) NaN) 0)) /\
    (increasing r -> (2 <= length r)%nat ->
       resampled r (wi_s_opt i) (wt_cl y) (wt_cl_opt y) /\ resampled r (wi_s_opt i) (wt_cd y) (wt_cd_opt y) /\
       (length (wt_theta y) = length r ->
          resampled r (wi_s_opt i) (wt_LiftF y) (wt_L_opt y) /\ resampled r (wi_s_opt i) (wt_DragF y) (wt_D_opt y))).
Proof. exact twist_outputs. Qed.
Print Assumptions C93_twist_outputs.

(** A rotor of drag bodies at two stations: the call succeeds, all premises hold, and the induction at the root is zero. *)
Example C93_example : forall npi alpha1 smooth, 3 < npi < PI -> exists y, let i := w_in drag_af [0; 0] [0; 0] [0; 0] in let r := g_r (wi_args i) in
  twist_compute npi midpoint alpha1 smooth forward i (0, 0, 0, 0) = Ok y /\ increasing r /\ (2 <= length r)%nat /\
  length (wt_theta y) = length r /\ rep (nth 0 (wt_a y) NaN) 0 /\ rep (nth 0 (wt_W y) NaN) (sqrt 2).
Proof.
  intros npi alpha1 smooth Hn. destruct midpoint_contracts as (M1 & _ & M2).
  destruct (d_forward npi midpoint alpha1 smooth (0, 0, 0, 0) Hn M1 M2) as (b & y & y0 & b' & w & ED & EY & _ & _ & _ & Ra & _ & RW).
  exists y. split; [exact EY|]. split; [exact d_increasing|]. split; [cbn; lia|].
  destruct (lift_drag npi midpoint alpha1 smooth _ _ _ _ ltac:(lra) M1 EY) as (b1 & b2 & ls & ED' & _ & HT & _).
  unfold twist_design, forward in ED'. cbn [wo_inverse w_in wi_args wi_theta_in] in ED'. rewrite w_construct in ED'. cbn [bind] in ED'.
  apply ok_inj in ED'. split; [rewrite <- HT, <- ED'; reflexivity|]. split; [exact Ra|exact RW].
Qed.

(** Stations at 2, 4 and 10: their span fractions are 0, 1/4 and 1; a NaN among the velocities. *)
Example C93_resampled : span_fraction [2; 4; 10] [0; 1 / 4; 1] /\
  polygon_value [0; 1 / 4; 1] [1; 3; 9] (1 / 2) 5 /\ without_nan [NaN; Fin 3; PInf] [Fin 0; Fin 3; PInf].
Proof.
  split; [|split].
  - split; [reflexivity|]. intros [|[|[|k]]] Hk; cbn in *; try lra; lia.
  - split; [cbn; lra|]. split; [cbn; lra|]. intros [|[|k]] Hk; cbn in *; [lra|lra|lia].
  - split; [reflexivity|]. intros [|[|[|k]]] Hk; cbn in *; try (split; [intros X; try discriminate X; reflexivity|intros X; try reflexivity; congruence]). lia.
Qed.
