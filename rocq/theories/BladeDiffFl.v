(** The derivative part of the class CCBlade with IEEE special values.

    BladeDiff.v is exact: a division by zero there is whatever Coq makes of it. Here the same expressions are written over
    any carrier, so that at the carrier [fl] a division by zero gives an infinity or NaN that spreads as numpy spreads it (numpy
    warns and goes on). What comes out of the Fortran routines, of the airfoil and of the residual's derivatives is a finite
    number, as in BladeDiff.v; the steps modelled with special values are those of ccblade.py in which a divisor can be zero
    and everything after them: lines 798-799, 1036-1136, 1281-1336, 1376-1424, 1490-1734. A zero among the finite
    numbers is +0. Where no divisor is zero the numbers are those of BladeDiff.v (C97_same_numbers, C98_same_numbers). *)
From Coq Require Import Reals Bool Arith List Lra.
From Verif Require Import Prelim Num Bem BemDiff Blade BladeDiff.
Import ListNotations.
Open Scope R_scope.

Section Carrier.
Context {A : Type} `{Arith A}.
Notation "# x" := (ofR x) (at level 5, x at level 5).
Open Scope num_scope.

Definition gdirs := nat -> A.

(** ccblade.py:798-799. *)
Definition g_slope (N c dc W dW chord dchord : R) : A :=
  #N * (#1 / #c * #dc + #2 / #W * #dW + #1 / #chord * #dchord).

(** ccblade.py:1036-1048. *)
Definition g_total (dN dR : gdirs) (j : nat) : A := dN (S j) - dN 0%nat / dR 0%nat * dR (S j).

(** __loads, ccblade.py:717-812, and the loop over the stations, 963-1033. *)
Definition g_station (npi : R) (bq : rootfinder R) (fx : fixed) (D : design) (i : nat) : res (sload R * gdirs * gdirs * dirs) :=
  let rt := rotor_d fx D in
  let sc := sect_d fx D i in
  let rotating := negb (reqb (x_Omega D) 0) in
  do phi <- (if rotating then
               match rt_iterRe rt with O => Raise NameError | S m => solve npi bq (errf rt sc m) end
             else Ok (npi / 2)%R);
  loads_dv_with g_slope #0 rt phi rotating sc (f_afd fx i).

(** ccblade.py:1050-1092. *)
Definition g_dN_dw (DN : nat -> gdirs) (dVx_dw dVy_dw : nat -> arr) (k : nat) : gdirs :=
  fun i => DN i 2%nat * #(dVx_dw k i) + DN i 3%nat * #(dVy_dw k i).
Definition g_dN_dz (DN : nat -> gdirs) (dVx_dw dVy_dw : nat -> arr) (m : nat) : gdirs :=
  fun i => DN i (nth m zidx 0%nat) + (if Nat.eqb m 0 then g_dN_dw DN dVx_dw dVy_dw 0 i else #0).
Definition g_stackX (dz dw : nat -> gdirs) (k : nat) : gdirs :=
  if Nat.ltb k 5 then dz k else if Nat.ltb k 14 then dw (k - 4)%nat else dz 5%nat.
Definition g_dN_dX (DN : nat -> gdirs) (dVx_dw dVy_dw : nat -> arr) (k : nat) : gdirs :=
  fun i => g_stackX (g_dN_dz DN dVx_dw dVy_dw) (g_dN_dw DN dVx_dw dVy_dw) k i
           * #(if existsb (Nat.eqb k) ridx then (PI / 180)%R else 1).
Definition g_dN_dprecurve (DN : nat -> gdirs) (dVx_dcurve dVy_dcurve : nat -> arr) (k : nat) : gdirs :=
  fun i => DN i 2%nat * #(dVx_dcurve k i) + DN i 3%nat * #(dVy_dcurve k i).

Record g_jac := mkGJac {
  gj_Np : arr; gj_Tp : arr; gj_NX : nat -> gdirs; gj_TX : nat -> gdirs; gj_Npc : nat -> gdirs; gj_Tpc : nat -> gdirs }.
Definition g_loads_jac (npi : R) (bq : rootfinder R) (fx : fixed) (D : design) : res g_jac :=
  do out <- mapM (g_station npi bq fx D) (seq 0 (f_n fx));
  let get i := nth i out (zero_load, (fun _ => #0), (fun _ => #0), (fun _ => 0%R)) in
  let l i := fst (fst (fst (get i))) in
  let dN i := snd (fst (fst (get i))) in
  let dT i := snd (fst (get i)) in
  let dR i := fun k => #(snd (get i) k) in
  let DN := fun i => g_total (dN i) (dR i) in
  let DT := fun i => g_total (dT i) (dR i) in
  let w := wind_seeded fx D in
  let n := f_n fx in
  let wx := dV_dw n (wv_vxd w) in let wy := dV_dw n (wv_vyd w) in
  let cx := dV_dcurve n (wv_vxd w) in let cy := dV_dcurve n (wv_vyd w) in
  Ok (mkGJac (fun i => o_Np (l i)) (fun i => o_Tp (l i)) (g_dN_dX DN wx wy) (g_dN_dX DT wx wy)
        (g_dN_dprecurve DN cx cy) (g_dN_dprecurve DT cx cy)).

(** The dictionaries, ccblade.py:1094-1136. *)
Record g_ldict := mkGLdict {
  gl_dr : nat -> gdirs; gl_dchord : nat -> gdirs; gl_dtheta : nat -> gdirs; gl_dpresweep : nat -> gdirs; gl_dprecurve : nat -> gdirs;
  gl_dRhub : gdirs; gl_dRtip : gdirs; gl_dprecone : gdirs; gl_dtilt : gdirs; gl_dhubHt : gdirs; gl_dyaw : gdirs; gl_dshear : gdirs;
  gl_dazimuth : gdirs; gl_dUinf : gdirs; gl_dOmega : gdirs; gl_dpitch : gdirs }.
Definition g_diag (f : gdirs) : nat -> gdirs := fun i j => if Nat.eqb i j then f i else #0.
Definition g_load_dict (X : nat -> gdirs) (pc : nat -> gdirs) : g_ldict :=
  mkGLdict (g_diag (X 0%nat)) (g_diag (X 1%nat)) (g_diag (X 2%nat)) (g_diag (X 5%nat)) (fun i j => pc j i)
    (X 3%nat) (X 4%nat) (X 6%nat) (X 7%nat) (X 8%nat) (X 9%nat) (X 10%nat) (X 11%nat) (X 12%nat) (X 13%nat) (X 14%nat).
Definition g_distributed (npi : R) (bq : rootfinder R) (fx : fixed) (D : design) : res (arr * arr * g_ldict * g_ldict) :=
  do j <- g_loads_jac npi bq fx D;
  Ok (gj_Np j, gj_Tp j, g_load_dict (gj_NX j) (gj_Npc j), g_load_dict (gj_TX j) (gj_Tpc j)).

(** ** evaluate *)
Record g_grad := mkGGrad { gg_s : gdirs; gg_v : nat -> gdirs }.
Definition g_gadd (a b : g_grad) : g_grad := mkGGrad (fun k => gg_s a k + gg_s b k) (fun k i => gg_v a k i + gg_v b k i).
Definition g_gscale (c : R) (a : g_grad) : g_grad := mkGGrad (fun k => #c * gg_s a k) (fun k i => #c * gg_v a k i).
Definition g_gzero : g_grad := mkGGrad (fun _ => #0) (fun _ _ => #0).

Fixpoint g_asum (n : nat) (f : gdirs) : A := match n with O => #0 | S m => g_asum m f + f m end.

(** ccblade.py:1490-1734. *)
Definition g_thrustTorqueDeriv (fx : fixed) (D : design) (j : g_jac) (q : nat) : g_grad :=
  let n := f_n fx in
  let b := thrustTorque_bv n (gj_Np j) (gj_Tp j) (x_r D) (x_precurve D) (x_presweep D) (radians (x_precone D))
             (x_Rhub D) (x_Rtip D) (x_precurveTip D) (x_presweepTip D) (eye 0) (eye 1) (eye 2) (eye 3) (eye 4) q in
  let dX := fun k i => #(tb_np b i) * gj_NX j k i + #(tb_tp b i) * gj_TX j k i in
  let dpc := fun k => g_asum n (fun i => #(tb_np b i) * gj_Npc j k i + #(tb_tp b i) * gj_Tpc j k i) in
  mkGGrad
    (fun k => nth k
       [g_asum n (dX 6%nat) + #(radians (tb_precone b)); g_asum n (dX 7%nat); g_asum n (dX 8%nat);
        g_asum n (dX 3%nat) + #(tb_rhub b); g_asum n (dX 4%nat) + #(tb_rtip b); #(tb_pctip b); #(tb_pstip b);
        g_asum n (dX 9%nat); g_asum n (dX 10%nat); g_asum n (dX 12%nat); g_asum n (dX 13%nat); g_asum n (dX 14%nat)] #0)
    (fun k i => nth k
       [dX 0%nat i + #(tb_r b i); dX 1%nat i; dX 2%nat i; dpc i + #(tb_pc b i); dX 5%nat i + #(tb_ps b i)] #0).

(** The loop over the azimuths, ccblade.py:1271-1325. *)
Record g_totals := mkGTot { gt_tot : totals; gt_T : g_grad; gt_Y : g_grad; gt_Z : g_grad; gt_Q : g_grad;
  gt_My : g_grad; gt_Mz : g_grad; gt_Mb : g_grad }.
Definition g_tot0 : g_totals := mkGTot tot0 g_gzero g_gzero g_gzero g_gzero g_gzero g_gzero g_gzero.
Definition g_tot_add (fx : fixed) (D : design) (az : R) (j : g_jac) (t : g_totals) : g_totals :=
  let ca := cos az in let sa := sin az in
  let B := INR (f_B fx) in let nsec := INR (f_nSector fx) in
  let '(Tsub, Ysub, Zsub, Qsub, Msub) :=
    thrustTorque (f_n fx) (gj_Np j) (gj_Tp j) (x_r D) (x_precurve D) (x_presweep D) (radians (x_precone D))
      (x_Rhub D) (x_Rtip D) (x_precurveTip D) (x_presweepTip D) in
  let g := g_thrustTorqueDeriv fx D j in
  let u := gt_tot t in
  mkGTot
    (mkTot (t_T u + B * Tsub / nsec)%R (t_Y u + B * (Ysub * ca - Zsub * sa) / nsec)%R
           (t_Z u + B * (Zsub * ca + Ysub * sa) / nsec)%R (t_Q u + B * Qsub / nsec)%R
           (t_My u + B * Msub * ca / nsec)%R (t_Mz u + B * Msub * sa / nsec)%R (t_Mb u + Msub / nsec)%R)
    (g_gadd (gt_T t) (g_gscale (B / nsec)%R (g 0%nat)))
    (g_gadd (gt_Y t) (g_gscale (B / nsec)%R (g_gadd (g_gscale ca (g 1%nat)) (g_gscale (- sa)%R (g 2%nat)))))
    (g_gadd (gt_Z t) (g_gscale (B / nsec)%R (g_gadd (g_gscale ca (g 2%nat)) (g_gscale sa (g 1%nat)))))
    (g_gadd (gt_Q t) (g_gscale (B / nsec)%R (g 3%nat)))
    (g_gadd (gt_My t) (g_gscale (B * ca / nsec)%R (g 4%nat)))
    (g_gadd (gt_Mz t) (g_gscale (B * sa / nsec)%R (g 4%nat)))
    (g_gadd (gt_Mb t) (g_gscale (1 / nsec)%R (g 4%nat))).
Fixpoint g_sectors (npi : R) (bq : rootfinder R) (fx : fixed) (D : design) (azs : list R) (t : g_totals) : res g_totals :=
  match azs with
  | [] => Ok t
  | az :: azs' =>
      do j <- g_loads_jac npi bq fx (set_azimuth D (degrees az));
      g_sectors npi bq fx D azs' (g_tot_add fx D az j t)
  end.

(** ccblade.py:1329-1336, 1376-1424. *)
Definition g_dP_of (D : design) (Q : R) (dQ : g_grad) : g_grad :=
  mkGGrad (fun k => gg_s dQ k * #(x_Omega D) * #PI / #30 + (if Nat.eqb k 10 then #Q * #PI / #30 else #0))
          (fun k i => gg_v dQ k i * #(x_Omega D) * #PI / #30).
Definition g_dC_force (rho : R) (D : design) (C : A) (F : R) (dF : g_grad) : g_grad :=
  mkGGrad (fun k => C * (gg_s dF k / #F - #(dA_ds D k) / #(area D) - #(dq_ds rho D k) / #(dyn rho D)))
          (fun k i => gg_v dF k i / #(dyn rho D * area D)%R).
Definition g_dC_moment (rho : R) (D : design) (C : A) (F : R) (dF : g_grad) : g_grad :=
  mkGGrad (fun k => C * (gg_s dF k / #F - #(dA_ds D k) / #(area D) - #(dq_ds rho D k) / #(dyn rho D) - #(dR_ds D k) / #(rotorR_d D)))
          (fun k i => gg_v dF k i / #(dyn rho D * rotorR_d D * area D)%R).
Definition g_dC_power (rho : R) (D : design) (C : A) (Q : R) (dQ : g_grad) : g_grad :=
  mkGGrad (fun k => C * (gg_s dQ k / #Q + #(dOmega_ds k) / #(x_Omega D) - #(dA_ds D k) / #(area D) - #(dq_ds rho D k) / #(dyn rho D)
                         - #(dU_ds k) / #(x_Uinf D)))
          (fun k i => gg_v dQ k i * C / #Q).

Record g_tdict := mkGTdict {
  ge_dprecone : A; ge_dtilt : A; ge_dhubHt : A; ge_dRhub : A; ge_dRtip : A; ge_dprecurveTip : A; ge_dpresweepTip : A;
  ge_dyaw : A; ge_dshear : A; ge_dUinf : A; ge_dOmega : A; ge_dpitch : A;
  ge_dr : gdirs; ge_dchord : gdirs; ge_dtheta : gdirs; ge_dprecurve : gdirs; ge_dpresweep : gdirs }.
Definition g_tt_dict (g : g_grad) : g_tdict :=
  let s := gg_s g in let v := gg_v g in
  mkGTdict (s 0%nat) (s 1%nat) (s 2%nat) (s 3%nat) (s 4%nat) (s 5%nat) (s 6%nat) (s 7%nat) (s 8%nat) (s 9%nat)
    (s 10%nat) (s 11%nat) (v 0%nat) (v 1%nat) (v 2%nat) (v 3%nat) (v 4%nat).

(** Outputs of evaluate; the coefficients are quotients whose divisors may be zero as well. *)
Record g_eval := mkGEval {
  gv_tot : totals; gv_P : A; gv_CT : A; gv_CY : A; gv_CZ : A; gv_CQ : A; gv_CMy : A; gv_CMz : A; gv_CMb : A; gv_CP : A;
  gv_dT : g_tdict; gv_dY : g_tdict; gv_dZ : g_tdict; gv_dQ : g_tdict; gv_dMy : g_tdict; gv_dMz : g_tdict; gv_dMb : g_tdict; gv_dP : g_tdict;
  gv_dCT : g_tdict; gv_dCY : g_tdict; gv_dCZ : g_tdict; gv_dCQ : g_tdict; gv_dCMy : g_tdict; gv_dCMz : g_tdict; gv_dCMb : g_tdict;
  gv_dCP : g_tdict }.
Definition g_finish (fx : fixed) (D : design) (t : g_totals) : g_eval :=
  let u := gt_tot t in
  let rho := f_rho fx in
  let P := (t_Q u * x_Omega D * PI / 30)%R in
  let q := dyn rho D in let ar := area D in let Rr := rotorR_d D in
  let CP := #P / #(q * ar * x_Uinf D)%R in
  let CT := #(t_T u) / #(q * ar)%R in let CY := #(t_Y u) / #(q * ar)%R in let CZ := #(t_Z u) / #(q * ar)%R in
  let CQ := #(t_Q u) / #(q * Rr * ar)%R in let CMy := #(t_My u) / #(q * Rr * ar)%R in
  let CMz := #(t_Mz u) / #(q * Rr * ar)%R in let CMb := #(t_Mb u) / #(q * Rr * ar)%R in
  mkGEval u #P CT CY CZ CQ CMy CMz CMb CP
    (g_tt_dict (gt_T t)) (g_tt_dict (gt_Y t)) (g_tt_dict (gt_Z t)) (g_tt_dict (gt_Q t)) (g_tt_dict (gt_My t)) (g_tt_dict (gt_Mz t))
    (g_tt_dict (gt_Mb t)) (g_tt_dict (g_dP_of D (t_Q u) (gt_Q t)))
    (g_tt_dict (g_dC_force rho D CT (t_T u) (gt_T t))) (g_tt_dict (g_dC_force rho D CY (t_Y u) (gt_Y t)))
    (g_tt_dict (g_dC_force rho D CZ (t_Z u) (gt_Z t))) (g_tt_dict (g_dC_moment rho D CQ (t_Q u) (gt_Q t)))
    (g_tt_dict (g_dC_moment rho D CMy (t_My u) (gt_My t))) (g_tt_dict (g_dC_moment rho D CMz (t_Mz u) (gt_Mz t)))
    (g_tt_dict (g_dC_moment rho D CMb (t_Mb u) (gt_Mb t))) (g_tt_dict (g_dC_power rho D CP (t_Q u) (gt_Q t))).

(** ccblade.py:1155-1488. *)
Definition g_evaluate (npi : R) (bq : rootfinder R) (fx : fixed) (D : design) : res g_eval :=
  do t <- g_sectors npi bq fx D (azimuths (f_nSector fx)) g_tot0;
  Ok (g_finish fx D t).
End Carrier.
Arguments g_jac A : clear implicits.
Arguments g_ldict A : clear implicits.
Arguments g_grad A : clear implicits.
Arguments g_totals A : clear implicits.
Arguments g_tdict A : clear implicits.
Arguments g_eval A : clear implicits.
