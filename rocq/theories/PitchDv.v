(** Derivatives by pitch against derivatives by twist: lemmas for C112. *)
From Coq Require Import Reals Bool Arith List Lra Lia.
From Verif Require Import Prelim Num Bem BemDiff Blade BladeDiff BladeDiffFl StationProofs BladeDvProofs.
Import ListNotations.
Open Scope R_scope.

(** ** The Fortran routines treat two directions alike when their seeds agree *)
Section Directions.
Variables n1 n2 : nat.
Local Notation same d := (d n1 = d n2).

Lemma acos_dv_same arg (d : dirs) : same d -> acos_dv arg (d n1) = acos_dv arg (d n2).
Proof. intros ->. reflexivity. Qed.

Lemma locals_same o b r rd chord chordd rhub rhubd rtip rtipd phi phid cl cld cd cdd :
  same rd -> same chordd -> same rhubd -> same rtipd -> same phid -> same cld -> same cdd ->
  let L := bem_locals_dv o b r rd chord chordd rhub rhubd rtip rtipd phi phid cl cld cd cdd in
  same (v_sphid L) /\ same (v_cphid L) /\ same (v_fd L) /\ same (v_kd L) /\ same (v_kpd L).
Proof.
  intros H1 H2 H3 H4 H5 H6 H7. cbv zeta. unfold bem_locals_dv.
  destruct (tipLoss o), (hubLoss o); cbn [v_sphid v_cphid v_fd v_kd v_kpd]; rewrite ?H1, ?H2, ?H3, ?H4, ?H5, ?H6, ?H7;
    repeat split; reflexivity.
Qed.

Lemma axial_pos_same k kd f fd : same kd -> same fd -> same (snd (axial_pos_dv k kd f fd)).
Proof.
  intros H1 H2. unfold axial_pos_dv. destruct (rleb k (2 / 3)); cbn [snd]; [rewrite H1; reflexivity|].
  destruct (rltb _ _); cbn [snd]; rewrite H1, H2; reflexivity.
Qed.
Lemma axial_neg_same k kd : same kd -> same (snd (axial_neg_dv k kd)).
Proof. intros H1. unfold axial_neg_dv. destruct (rltb 1 k); cbn [snd]; rewrite ?H1; reflexivity. Qed.

Lemma induction_same o b r rd chord chordd rhub rhubd rtip rtipd phi phid cl cld cd cdd vx vxd vy vyd :
  same rd -> same chordd -> same rhubd -> same rtipd -> same phid -> same cld -> same cdd -> same vxd -> same vyd ->
  let d := inductionFactors_dv o b r rd chord chordd rhub rhubd rtip rtipd phi phid cl cld cd cdd vx vxd vy vyd in
  same (iv_fzerod d) /\ same (iv_ad d) /\ same (iv_apd d).
Proof.
  intros H1 H2 H3 H4 H5 H6 H7 H8 H9. unfold inductionFactors_dv.
  destruct (locals_same o b r rd chord chordd rhub rhubd rtip rtipd phi phid cl cld cd cdd H1 H2 H3 H4 H5 H6 H7) as (A & B & C & D & E).
  revert A B C D E. generalize (bem_locals_dv o b r rd chord chordd rhub rhubd rtip rtipd phi phid cl cld cd cdd). intros L A B C D E.
  pose proof (axial_pos_same (v_k L) (v_kd L) (v_f L) (v_fd L) D C) as P. pose proof (axial_neg_same (v_k L) (v_kd L) D) as N.
  destruct (rltb 0 phi); [destruct (axial_pos_dv _ _ _ _) as [a ad]|destruct (axial_neg_dv _ _) as [a ad]]; cbn [snd] in P, N;
    destruct (wakerotation o); cbn [negb iv_fzerod iv_ad iv_apd]; rewrite ?A, ?B, ?D, ?E, ?H8, ?H9, ?P, ?N; repeat split; reflexivity.
Qed.

Lemma relativeWind_same phi phid a ad ap apd vx vxd vy vyd pitch pitchd chord chordd theta thetad rho mu :
  same phid -> same ad -> same apd -> same vxd -> same vyd -> same chordd -> thetad n1 + pitchd n1 = thetad n2 + pitchd n2 ->
  let d := relativeWind_dv phi phid a ad ap apd vx vxd vy vyd pitch pitchd chord chordd theta thetad rho mu in
  same (rw_alphad d) /\ same (rw_wd d) /\ same (rw_red d).
Proof.
  intros H1 H2 H3 H4 H5 H6 H7. unfold relativeWind_dv.
  assert (K : phid n1 - thetad n1 - pitchd n1 = phid n2 - thetad n2 - pitchd n2) by (rewrite H1; lra).
  destruct (rltb 10 (if rleb 0 a then a else - a)); [|destruct (rltb 10 (if rleb 0 ap then ap else - ap))];
    cbn [rw_alphad rw_wd rw_red]; rewrite ?H1 in *; rewrite ?H2, ?H3, ?H4, ?H5, ?H6; repeat split; try reflexivity; exact K.
Qed.
End Directions.

(** ** One station: directions 2 (twist) and 8 (pitch) *)
Lemma residual_same rt phi sc afd : let '(dR, da, dap) := residualDerivatives rt phi sc afd in
  dR 2%nat = dR 8%nat /\ da 2%nat = da 8%nat /\ dap 2%nat = dap 8%nat.
Proof.
  unfold residualDerivatives. destruct (relativeWind _ _ _ _ _ _ _ _ _ _) as [[alpha W] Re]. destruct (s_af sc alpha Re) as [cl cd].
  destruct (afd alpha Re) as [[[p q] u] w]. apply induction_same; reflexivity.
Qed.

Lemma station_same_dir {T} (slope : R -> R -> R -> R -> R -> R -> R -> T) none rt phi rot sc afd l dN dT dR :
  loads_dv_with slope none rt phi rot sc afd = Ok (l, dN, dT, dR) -> dN 2%nat = dN 8%nat /\ dT 2%nat = dT 8%nat /\ dR 2%nat = dR 8%nat.
Proof.
  unfold loads_dv_with. destruct (andb _ _).
  2: { intros H. assert (K : (zero_load, (fun _ : nat => none), (fun _ : nat => none), (fun _ : nat => 0)) = (l, dN, dT, dR)) by congruence.
       clear H. apply pair_equal_spec in K. destruct K as [K <-]. apply pair_equal_spec in K. destruct K as [K <-].
       apply pair_equal_spec in K. destruct K as [_ <-]. repeat split; reflexivity. }
  destruct (loads rt phi rot sc) as [l0|] eqn:El; [|discriminate]. cbn [bind].
  assert (RD : let '(dR, da, dap) := if rot then residualDerivatives rt phi sc afd else (eye 0, (fun _ : nat => 0), (fun _ : nat => 0)) in
    dR 2%nat = dR 8%nat /\ da 2%nat = da 8%nat /\ dap 2%nat = dap 8%nat).
  { destruct rot; [apply residual_same|repeat split; reflexivity]. }
  destruct (if rot then residualDerivatives rt phi sc afd else _) as [[dR0 da] dap]. destruct RD as (RR & Ra & Rp).
  destruct (relativeWind_same 2 8 phi (eye 0) (o_a l0) da (o_ap l0) dap (s_Vx sc) (eye 3) (s_Vy sc) (eye 4) (rt_pitch rt) (eye 8)
    (s_chord sc) (eye 1) (s_theta sc) (eye 2) (rt_rho rt) (rt_mu rt)) as (A & B & C); try reflexivity; try assumption.
  { unfold eye. cbn. ring. }
  revert A B C. generalize (relativeWind_dv phi (eye 0) (o_a l0) da (o_ap l0) dap (s_Vx sc) (eye 3) (s_Vy sc) (eye 4) (rt_pitch rt) (eye 8)
    (s_chord sc) (eye 1) (s_theta sc) (eye 2) (rt_rho rt) (rt_mu rt)). intros d A B C.
  destruct (afd (rw_alpha d) (rw_re d)) as [[[p q] u] w]. destruct (orb _ _); [discriminate|]. intros H.
  assert (Z : (if rot then eye 0 else fun _ : nat => 0) 2%nat = (if rot then eye 0 else fun _ : nat => 0) 8%nat) by (destruct rot; reflexivity).
  apply ok_inj in H. apply pair_equal_spec in H. destruct H as [H <-]. apply pair_equal_spec in H. destruct H as [H <-].
  apply pair_equal_spec in H. destruct H as [_ <-]. rewrite A, B, C, Z. repeat split; try reflexivity; exact RR.
Qed.

(** ** The dictionaries of the section loads *)
Section Loads.
Context {A : Type} `{Arith A}.

Lemma g_rows (DN : nat -> @gdirs A) wx wy i : DN i 1%nat = DN i 7%nat -> g_dN_dX DN wx wy 2 i = g_dN_dX DN wx wy 14 i.
Proof. intros E. unfold g_dN_dX, g_stackX, g_dN_dz. cbn. rewrite E. reflexivity. Qed.

Lemma g_distributed_pitch npi bq fx D Np Tp (dN dT : @g_ldict A) : g_distributed npi bq fx D = Ok (Np, Tp, dN, dT) ->
  forall i, (i < f_n fx)%nat -> gl_dpitch dN i = gl_dtheta dN i i /\ gl_dpitch dT i = gl_dtheta dT i i.
Proof.
  unfold g_distributed, g_loads_jac. destruct (mapM _ _) as [out|e] eqn:E; [|discriminate]. cbn [bind].
  set (z := (zero_load, (fun _ => ofR 0), (fun _ => ofR 0), (fun _ => 0)) : sload R * @gdirs A * @gdirs A * dirs) in *.
  intros Q i Hi. apply ok_inj in Q. apply pair_equal_spec in Q. destruct Q as [Q <-]. apply pair_equal_spec in Q. destruct Q as [_ <-].
  pose proof (mapM_nth _ _ _ 0%nat z E i) as K. rewrite seq_length in K. specialize (K Hi).
  rewrite seq_nth in K by exact Hi. change (0 + i)%nat with i in K.
  unfold g_station in K. destruct (if negb (reqb (x_Omega D) 0) then _ else _) as [phi|]; [|discriminate]. cbn [bind] in K.
  destruct (nth i out z) as [[[l a] b] c] eqn:Ez. apply station_same_dir in K. destruct K as (K1 & K2 & K3).
  unfold g_load_dict, g_diag. cbn [gl_dpitch gl_dtheta gj_NX gj_TX]. rewrite Nat.eqb_refl.
  split; symmetry; apply g_rows; rewrite Ez; cbn [fst snd]; unfold g_total; rewrite ?K1, ?K2, ?K3; reflexivity.
Qed.

Lemma g_distributed_diag npi bq fx D Np Tp (dN dT : @g_ldict A) : g_distributed npi bq fx D = Ok (Np, Tp, dN, dT) ->
  forall i j, i <> j -> gl_dtheta dN i j = ofR 0 /\ gl_dtheta dT i j = ofR 0.
Proof.
  unfold g_distributed. destruct (g_loads_jac _ _ _ _) as [J|]; [|discriminate]. cbn [bind].
  intros Q i j Hi. apply ok_inj in Q. apply pair_equal_spec in Q. destruct Q as [Q <-]. apply pair_equal_spec in Q. destruct Q as [_ <-].
  apply Nat.eqb_neq in Hi. unfold g_load_dict, g_diag. cbn [gl_dtheta]. rewrite Hi. split; reflexivity.
Qed.
End Loads.

(** ** The totals *)
Lemma rows_same (DN : nat -> dirs) wx wy i : DN i 1%nat = DN i 7%nat -> dN_dX DN wx wy 2 i = dN_dX DN wx wy 14 i.
Proof. intros E. unfold dN_dX, stackX, dN_dz. cbn. rewrite E. reflexivity. Qed.

Lemma jac_pitch npi bq fx D j : loads_jac npi bq fx D = Ok j -> forall i, (i < f_n fx)%nat -> j_NX j 2 i = j_NX j 14 i /\ j_TX j 2 i = j_TX j 14 i.
Proof.
  intros Q i Hi. destruct (loads_jac_station npi bq fx D j Q) as (l & dN & dT & dR & HS & ->). specialize (HS i Hi).
  unfold station_dv in HS. destruct (if negb (reqb (x_Omega D) 0) then _ else _) as [phi|]; [|discriminate]. cbn [bind] in HS.
  apply station_same_dir in HS. destruct HS as (K1 & K2 & K3). cbn [j_NX j_TX].
  split; apply rows_same; unfold total; rewrite ?K1, ?K2, ?K3; reflexivity.
Qed.

(** The property for a gradient: entry "pitch" is the sum of the entries "theta". *)
Definition pitch_is_sum (n : nat) (g : grad) : Prop := g_s g 11%nat = asum n (g_v g 2%nat).

Lemma asum_ext n f g : (forall i, (i < n)%nat -> f i = g i) -> asum n f = asum n g.
Proof. intros E. induction n as [|n IH]; [reflexivity|]. cbn [asum]. rewrite IH, E by (intros; apply E || idtac; lia). reflexivity. Qed.
Lemma asum_plus n f g : asum n (fun i => f i + g i) = asum n f + asum n g.
Proof. induction n as [|n IH]; cbn [asum]; [ring|rewrite IH; ring]. Qed.
Lemma asum_times n c f : asum n (fun i => c * f i) = c * asum n f.
Proof. induction n as [|n IH]; cbn [asum]; [ring|rewrite IH; ring]. Qed.
Lemma asum_times_r n c f : asum n (fun i => f i * c) = asum n f * c.
Proof. induction n as [|n IH]; cbn [asum]; [ring|rewrite IH; ring]. Qed.
Lemma asum_0 n : asum n (fun _ => 0) = 0.
Proof. induction n as [|n IH]; cbn [asum]; [reflexivity|rewrite IH; ring]. Qed.

Lemma sum_add n a b : pitch_is_sum n a -> pitch_is_sum n b -> pitch_is_sum n (gadd a b).
Proof. unfold pitch_is_sum, gadd. cbn [g_s g_v]. intros -> ->. symmetry. apply asum_plus. Qed.
Lemma sum_scale n c a : pitch_is_sum n a -> pitch_is_sum n (gscale c a).
Proof. unfold pitch_is_sum, gscale. cbn [g_s g_v]. intros ->. symmetry. apply asum_times. Qed.
Lemma sum_zero n : pitch_is_sum n gzero.
Proof. unfold pitch_is_sum, gzero. cbn [g_s g_v]. symmetry. apply asum_0. Qed.

Lemma sum_deriv npi bq fx D D' j q : loads_jac npi bq fx D' = Ok j -> pitch_is_sum (f_n fx) (thrustTorqueDeriv fx D j q).
Proof.
  intros Q. unfold pitch_is_sum, thrustTorqueDeriv. cbn [g_s g_v nth]. apply asum_ext. intros i Hi.
  destruct (jac_pitch npi bq fx D' j Q i Hi) as [-> ->]. reflexivity.
Qed.

Definition all_sums (n : nat) (t : totals_dv) : Prop :=
  pitch_is_sum n (td_T t) /\ pitch_is_sum n (td_Y t) /\ pitch_is_sum n (td_Z t) /\ pitch_is_sum n (td_Q t) /\
  pitch_is_sum n (td_My t) /\ pitch_is_sum n (td_Mz t) /\ pitch_is_sum n (td_Mb t).

Lemma add_sums npi bq fx D D' az j t : loads_jac npi bq fx D' = Ok j -> all_sums (f_n fx) t -> all_sums (f_n fx) (totd_add fx D az j t).
Proof.
  intros Q (H1 & H2 & H3 & H4 & H5 & H6 & H7). unfold totd_add. destruct (thrustTorque _ _ _ _ _ _ _ _ _ _ _) as [[[[a b] c] d] e].
  pose proof (fun q => sum_deriv npi bq fx D D' j q Q) as S1.
  unfold all_sums. cbn [td_T td_Y td_Z td_Q td_My td_Mz td_Mb].
  refine (conj _ (conj _ (conj _ (conj _ (conj _ (conj _ _)))))); apply sum_add; try assumption; apply sum_scale; try apply S1;
    apply sum_add; apply sum_scale; apply S1.
Qed.

Lemma sectors_sums npi bq fx D azs : forall t t', all_sums (f_n fx) t -> sectors_dv npi bq fx D azs t = Ok t' -> all_sums (f_n fx) t'.
Proof.
  induction azs as [|az azs IH]; intros t t' Ht; cbn [sectors_dv].
  - intros E. apply ok_inj in E. subst t'. exact Ht.
  - destruct (loads_jac _ _ _ _) as [j|] eqn:Ej; [|discriminate]. cbn [bind]. apply IH. eapply add_sums; eassumption.
Qed.

Lemma evaluate_sums npi bq fx D E : evaluate_dv npi bq fx D = Ok E -> exists t, all_sums (f_n fx) t /\ E = finish_dv fx D t.
Proof.
  unfold evaluate_dv. destruct (sectors_dv _ _ _ _ _ _) as [t|] eqn:Et; [|discriminate]. cbn [bind]. intros Q. apply ok_inj in Q.
  exists t. split; [|symmetry; exact Q]. eapply sectors_sums; [|exact Et].
  repeat (split; [apply sum_zero|]). apply sum_zero.
Qed.

Lemma sum_P n D Q g : pitch_is_sum n g -> pitch_is_sum n (dP_of D Q g).
Proof.
  unfold pitch_is_sum, dP_of. cbn [g_s g_v Nat.eqb]. intros ->.
  rewrite (asum_ext n (fun i => g_v g 2 i * x_Omega D * PI / 30) (fun i => g_v g 2 i * (x_Omega D * PI / 30))) by (intros; unfold Rdiv; ring).
  rewrite asum_times_r. unfold Rdiv. ring.
Qed.
Lemma sum_force n rho D F g : F <> 0 -> pitch_is_sum n g -> pitch_is_sum n (dC_force rho D (F / (dyn rho D * area D)) F g).
Proof.
  unfold pitch_is_sum, dC_force. cbn [g_s g_v]. intros HF ->. unfold dA_ds, dR_ds, dq_ds, dU_ds. cbn [nth Nat.eqb].
  unfold Rdiv. rewrite asum_times_r. set (X := dyn rho D * area D).
  match goal with |- ?l = _ => replace l with (/ X * asum n (g_v g 2) * (F * / F)) by ring end.
  rewrite Rinv_r by exact HF. ring.
Qed.
Lemma sum_moment n rho D F g : F <> 0 -> pitch_is_sum n g -> pitch_is_sum n (dC_moment rho D (F / (dyn rho D * rotorR_d D * area D)) F g).
Proof.
  unfold pitch_is_sum, dC_moment. cbn [g_s g_v]. intros HF ->. unfold dA_ds, dR_ds, dq_ds, dU_ds. cbn [nth Nat.eqb].
  unfold Rdiv. rewrite asum_times_r. set (X := dyn rho D * rotorR_d D * area D).
  match goal with |- ?l = _ => replace l with (/ X * asum n (g_v g 2) * (F * / F)) by ring end.
  rewrite Rinv_r by exact HF. ring.
Qed.
Lemma sum_power n rho D C Q g : pitch_is_sum n g -> pitch_is_sum n (dC_power rho D C Q g).
Proof.
  unfold pitch_is_sum, dC_power. cbn [g_s g_v]. intros ->. unfold dA_ds, dR_ds, dq_ds, dU_ds, dOmega_ds. cbn [nth Nat.eqb].
  rewrite (asum_ext n (fun i => g_v g 2 i * C / Q) (fun i => g_v g 2 i * (C / Q))) by (intros; unfold Rdiv; ring).
  rewrite asum_times_r. unfold Rdiv. ring.
Qed.
