(** Model of the derivative part of the class CCBlade (ccblade/ccblade.py), i.e. of
    the code run when derivatives=True. Exact reals.

    The attributes of the object and the arguments of the call that the
    derivatives refer to are the record [design], in the user's units (theta,
    precone, tilt, yaw, azimuth and pitch in degrees; the object stores radians).
    Everything else is the record [fixed]. Simplifications: scalar Uinf; the
    arrays have the right lengths; standard (not inverse) mode; r[0], r[-1],
    precurve[-1], presweep[-1] are the stored values (the constructor may have
    moved them, see [construct] in Blade.v). Division by zero is the value that
    Coq gives to x/0: theorems assume the divisors non-zero. *)
From Coq Require Import Reals Bool Arith List Lra.
From Verif Require Import Prelim Num Bem Blade BemDiff.
Import ListNotations.
Open Scope R_scope.

(** np.eye *)
Definition eye (i k : nat) : R := if Nat.eqb i k then 1 else 0.

(** CCAirfoil.derivatives (alpha, Re) = (dcl_dalpha, dcl_dRe, dcd_dalpha, dcd_dRe):
    ccblade.py:208-227, any function. *)
Definition airfoil_dv := R -> R -> R * R * R * R.

(** ** One station. x = [phi, chord, theta, Vx, Vy, r, Rhub, Rtip, pitch] *)

(** dalpha_dx and dRe_dx for a = ap = 0, ccblade.py:678-679. *)
Definition dalpha_dx (k : nat) : R := nth k [1; 0; -1; 0; 0; 0; 0; 0; -1] 0.
Definition dRe_dx (Re W chord Vx Vy : R) (k : nat) : R :=
  nth k [0; Re / chord; 0; Re * Vx / W ^ 2; Re * Vy / W ^ 2; 0; 0; 0; 0] 0.

(** __residualDerivatives, ccblade.py:665-715; result (dR_dx, da_dx, dap_dx).
    The test [self.iterRe != 1] at lines 668-669 creates a ValueError and drops it: no effect. *)
Definition residualDerivatives (rt : rotor R) (phi : R) (sc : sect R) (afd : airfoil_dv) : dirs * dirs * dirs :=
  let '(alpha, W, Re) := relativeWind phi 0 0 (s_Vx sc) (s_Vy sc) (rt_pitch rt) (s_chord sc) (s_theta sc)
                           (rt_rho rt) (rt_mu rt) in
  let dRe := dRe_dx Re W (s_chord sc) (s_Vx sc) (s_Vy sc) in
  let '(cl, cd) := s_af sc alpha Re in
  let '(dcl_dalpha, dcl_dRe, dcd_dalpha, dcd_dRe) := afd alpha Re in
  let dcl_dx := fun k => dcl_dalpha * dalpha_dx k + dcl_dRe * dRe k in
  let dcd_dx := fun k => dcd_dalpha * dalpha_dx k + dcd_dRe * dRe k in
  let d := inductionFactors_dv (rt_opts rt) (rt_B rt) (s_r sc) (eye 5) (s_chord sc) (eye 1) (rt_Rhub rt) (eye 6)
             (rt_Rtip rt) (eye 7) phi (eye 0) cl dcl_dx cd dcd_dx (s_Vx sc) (eye 3) (s_Vy sc) (eye 4) in
  (iv_fzerod d, iv_ad d, iv_apd d).

(** One entry of dNp_dx (or dTp_dx), ccblade.py:798-799: N * (1 / c * dc + 2 / W * dW + 1 / chord * dchord). *)
Definition load_slope (N c dc W dW chord dchord : R) : R := N * (1 / c * dc + 2 / W * dW + 1 / chord * dchord).

(** __loads with derivatives=True, ccblade.py:717-812; result (loads, dNp_dx, dTp_dx, dR_dx). The formula of an entry of
    dNp_dx and its value without wind are arguments (BladeDiffFl.v uses them with IEEE special values).
    The print before the ValueError (lines 789-791) is left out. *)
Definition loads_dv_with {T : Type} (slope : R -> R -> R -> R -> R -> R -> R -> T) (none : T)
    (rt : rotor R) (phi : R) (rotating : bool) (sc : sect R) (afd : airfoil_dv)
  : res (sload R * (nat -> T) * (nat -> T) * dirs) :=
  if andb (negb (reqb (s_Vx sc) 0)) (negb (reqb (s_Vy sc) 0)) then
    let cphi := cos phi in
    let sphi := sin phi in
    do l <- loads rt phi rotating sc;
    let '(dR_dx, da_dx, dap_dx) :=
      if rotating then residualDerivatives rt phi sc afd
      else (eye 0, (fun _ : nat => 0), (fun _ : nat => 0)) in
    let dphi_dx := if rotating then eye 0 else (fun _ : nat => 0) in
    let dchord_dx := eye 1 in
    let d := relativeWind_dv phi (eye 0) (o_a l) da_dx (o_ap l) dap_dx (s_Vx sc) (eye 3) (s_Vy sc) (eye 4)
               (rt_pitch rt) (eye 8) (s_chord sc) (eye 1) (s_theta sc) (eye 2) (rt_rho rt) (rt_mu rt) in
    let W := rw_w d in
    let dW_dx := rw_wd d in
    let '(dcl_dalpha, dcl_dRe, dcd_dalpha, dcd_dRe) := afd (rw_alpha d) (rw_re d) in
    let dcl_dx := fun k => dcl_dalpha * rw_alphad d k + dcl_dRe * rw_red d k in
    let dcd_dx := fun k => dcd_dalpha * rw_alphad d k + dcd_dRe * rw_red d k in
    let dcn_dx := fun k => dcl_dx k * cphi - o_cl l * sphi * dphi_dx k + dcd_dx k * sphi + o_cd l * cphi * dphi_dx k in
    let dct_dx := fun k => dcl_dx k * sphi + o_cl l * cphi * dphi_dx k - dcd_dx k * cphi + o_cd l * sphi * dphi_dx k in
    if orb (orb (reqb (o_cn l) 0) (reqb W 0)) (reqb (s_chord sc) 0) then Raise ValueError
    else
      let dNp_dx := fun k => slope (o_Np l) (o_cn l) (dcn_dx k) W (dW_dx k) (s_chord sc) (dchord_dx k) in
      let dTp_dx := fun k => slope (o_Tp l) (o_ct l) (dct_dx k) W (dW_dx k) (s_chord sc) (dchord_dx k) in
      Ok (l, dNp_dx, dTp_dx, dR_dx)
  else Ok (zero_load, (fun _ => none), (fun _ => none), (fun _ => 0)).
Definition loads_dv : rotor R -> R -> bool -> sect R -> airfoil_dv -> res (sload R * dirs * dirs * dirs) :=
  loads_dv_with load_slope 0.

(** Total derivatives DNp_Dx, ccblade.py:1036-1048: entry j of the design part x[1:]. *)
Definition total (dN dR : dirs) (j : nat) : R := dN (S j) - dN 0%nat / dR 0%nat * dR (S j).

(** ** The blade *)
Record design := mkDesign {
  x_r : arr; x_chord : arr; x_theta : arr; x_precurve : arr; x_presweep : arr;
  x_precone : R; x_tilt : R; x_hubHt : R; x_Rhub : R; x_Rtip : R; x_precurveTip : R; x_presweepTip : R;
  x_yaw : R; x_shear : R; x_azimuth : R; x_Uinf : R; x_Omega : R; x_pitch : R }.

Record fixed := mkFixed {
  f_n : nat; f_af : nat -> airfoil R; f_afd : nat -> airfoil_dv; f_B : nat; f_rho : R; f_mu : R;
  f_opts : bemopts; f_iterRe : nat; f_nSector : nat }.

(** The attributes used at a station, ccblade.py:927 and 554-571. *)
Definition rotor_d (fx : fixed) (D : design) : rotor R :=
  mkRotor (x_Rhub D) (x_Rtip D) (f_B fx) (f_rho fx) (f_mu fx) (f_opts fx) (f_iterRe fx) (radians (x_pitch D)).

(** __windComponents, values: ccblade.py:817-829. *)
Definition wind_d (fx : fixed) (D : design) : arr * arr :=
  windComponents (f_n fx) (x_r D) (x_precurve D) (x_presweep D) (radians (x_precone D)) (radians (x_yaw D))
    (radians (x_tilt D)) (radians (x_azimuth D)) (x_Uinf D) (x_Omega D) (x_hubHt D) (x_shear D).

(** Arguments of station i, ccblade.py:969. *)
Definition sect_d (fx : fixed) (D : design) (i : nat) : sect R :=
  mkSect (x_r D i) (x_chord D i) (radians (x_theta D i)) (f_af fx i) (fst (wind_d fx D) i) (snd (wind_d fx D) i).

(** __windComponents, derivatives: ccblade.py:835-876. Seeds are the columns of the unit matrix in the order
    y = [r, precurve, presweep, precone, tilt, hubHt, yaw, shear, azimuth, Uinf, Omega]. *)
Definition wind_seeded (fx : fixed) (D : design) : wind_dv_out :=
  let n := f_n fx in
  windComponents_dv n (x_r D) (fun nd i => eye nd i) (x_precurve D) (fun nd i => eye nd (n + i))
    (x_presweep D) (fun nd i => eye nd (2 * n + i)) (radians (x_precone D)) (fun nd => eye nd (3 * n))
    (radians (x_yaw D)) (fun nd => eye nd (3 * n + 3)) (radians (x_tilt D)) (fun nd => eye nd (3 * n + 1))
    (radians (x_azimuth D)) (fun nd => eye nd (3 * n + 5)) (x_Uinf D) (fun nd => eye nd (3 * n + 6))
    (x_Omega D) (fun nd => eye nd (3 * n + 7)) (x_hubHt D) (fun nd => eye nd (3 * n + 2))
    (x_shear D) (fun nd => eye nd (3 * n + 4)).

(** dVx_dw (and dVy_dw): rows [r, presweep, precone, tilt, hubHt, yaw, shear, azimuth, Uinf, Omega]; only the
    diagonals of the r and presweep blocks are kept: ccblade.py:863-874. *)
Definition dV_dw (n : nat) (Vd : nat -> arr) (k : nat) : arr :=
  match k with
  | O => fun i => Vd i i
  | S O => fun i => Vd (2 * n + i)%nat i
  | S (S m) => fun i => Vd (3 * n + m)%nat i
  end.
(** dVx_dcurve, dVy_dcurve: ccblade.py:866-867. *)
Definition dV_dcurve (n : nat) (Vd : nat -> arr) (k : nat) : arr := fun i => Vd (n + k)%nat i.

(** The stations' results: angle, loads, dNp_dx, dTp_dx, dR_dx of station i: ccblade.py:963-1033
    (the NaN guard cannot fire on reals). *)
Definition station_dv (npi : R) (bq : rootfinder R) (fx : fixed) (D : design) (i : nat)
  : res (sload R * dirs * dirs * dirs) :=
  let rt := rotor_d fx D in
  let sc := sect_d fx D i in
  let rotating := negb (reqb (x_Omega D) 0) in
  do phi <- (if rotating then
               match rt_iterRe rt with O => Raise NameError | S m => solve npi bq (errf rt sc m) end
             else Ok (npi / 2));
  loads_dv rt phi rotating sc (f_afd fx i).

(** dNp_dX (or dTp_dX), ccblade.py:1050-1086. [DN i] is DNp_Dx of station i; rows
    X = [r, chord, theta, Rhub, Rtip, presweep, precone, tilt, hubHt, yaw, shear, azimuth, Uinf, Omega, pitch]. *)
Definition zidx : list nat := [4; 0; 1; 5; 6; 7]%nat.
Definition ridx : list nat := [2; 6; 7; 9; 11; 14]%nat.
Definition dN_dw (DN : nat -> dirs) (dVx_dw dVy_dw : nat -> arr) (k : nat) : arr :=
  fun i => DN i 2%nat * dVx_dw k i + DN i 3%nat * dVy_dw k i.
Definition dN_dz (DN : nat -> dirs) (dVx_dw dVy_dw : nat -> arr) (m : nat) : arr :=
  fun i => DN i (nth m zidx 0%nat) + (if Nat.eqb m 0 then dN_dw DN dVx_dw dVy_dw 0 i else 0).
Definition stackX (dz dw : nat -> arr) (k : nat) : arr :=
  if Nat.ltb k 5 then dz k else if Nat.ltb k 14 then dw (k - 4)%nat else dz 5%nat.
Definition dN_dX (DN : nat -> dirs) (dVx_dw dVy_dw : nat -> arr) (k : nat) : arr :=
  fun i => stackX (dN_dz DN dVx_dw dVy_dw) (dN_dw DN dVx_dw dVy_dw) k i
           * (if existsb (Nat.eqb k) ridx then PI / 180 else 1).
(** dNp_dprecurve, ccblade.py:1069-1070: row k is the station whose precurve changes. *)
Definition dN_dprecurve (DN : nat -> dirs) (dVx_dcurve dVy_dcurve : nat -> arr) (k : nat) : arr :=
  fun i => DN i 2%nat * dVx_dcurve k i + DN i 3%nat * dVy_dcurve k i.

(** Results of the whole call kept for evaluate: loads, and the two matrices for Np and Tp. *)
Record load_jac := mkJac {
  j_Np : arr; j_Tp : arr; j_NX : nat -> arr; j_TX : nat -> arr; j_Npc : nat -> arr; j_Tpc : nat -> arr }.

(** distributedAeroLoads with derivatives=True up to line 1092. *)
Definition loads_jac (npi : R) (bq : rootfinder R) (fx : fixed) (D : design) : res load_jac :=
  do out <- mapM (station_dv npi bq fx D) (seq 0 (f_n fx));
  let get i := nth i out (zero_load, (fun _ => 0), (fun _ => 0), (fun _ => 0)) in
  let l i := fst (fst (fst (get i))) in
  let dN i := snd (fst (fst (get i))) in
  let dT i := snd (fst (get i)) in
  let dR i := snd (get i) in
  let DN := fun i => total (dN i) (dR i) in
  let DT := fun i => total (dT i) (dR i) in
  let w := wind_seeded fx D in
  let n := f_n fx in
  let wx := dV_dw n (wv_vxd w) in let wy := dV_dw n (wv_vyd w) in
  let cx := dV_dcurve n (wv_vxd w) in let cy := dV_dcurve n (wv_vyd w) in
  Ok (mkJac (fun i => o_Np (l i)) (fun i => o_Tp (l i)) (dN_dX DN wx wy) (dN_dX DT wx wy)
        (dN_dprecurve DN cx cy) (dN_dprecurve DT cx cy)).

(** The dictionary dNp (or dTp) of distributedAeroLoads, ccblade.py:1094-1136: entry (i, j) is d N_i / d x_j. *)
Record ldict := mkLdict {
  l_dr : nat -> arr; l_dchord : nat -> arr; l_dtheta : nat -> arr; l_dpresweep : nat -> arr; l_dprecurve : nat -> arr;
  l_dRhub : arr; l_dRtip : arr; l_dprecone : arr; l_dtilt : arr; l_dhubHt : arr; l_dyaw : arr; l_dshear : arr;
  l_dazimuth : arr; l_dUinf : arr; l_dOmega : arr; l_dpitch : arr }.

(** np.diag of a vector *)
Definition diag (f : arr) : nat -> arr := fun i j => if Nat.eqb i j then f i else 0.

Definition load_dict (X : nat -> arr) (pc : nat -> arr) : ldict :=
  mkLdict (diag (X 0%nat)) (diag (X 1%nat)) (diag (X 2%nat)) (diag (X 5%nat)) (fun i j => pc j i)
    (X 3%nat) (X 4%nat) (X 6%nat) (X 7%nat) (X 8%nat) (X 9%nat) (X 10%nat) (X 11%nat) (X 12%nat) (X 13%nat) (X 14%nat).

(** distributedAeroLoads with derivatives=True: (Np, Tp, derivs["dNp"], derivs["dTp"]). *)
Definition distributed_dv (npi : R) (bq : rootfinder R) (fx : fixed) (D : design) : res (arr * arr * ldict * ldict) :=
  do j <- loads_jac npi bq fx D;
  Ok (j_Np j, j_Tp j, load_dict (j_NX j) (j_Npc j), load_dict (j_TX j) (j_Tpc j)).

(** ** evaluate *)

(** A gradient: ds over the scalars [precone, tilt, hubHt, Rhub, Rtip, precurvetip, presweeptip, yaw, shear, Uinf,
    Omega, pitch] and dv over the vectors [r, chord, theta, precurve, presweep]. *)
Record grad := mkGrad { g_s : dirs; g_v : nat -> arr }.
Definition gadd (a b : grad) : grad := mkGrad (fun k => g_s a k + g_s b k) (fun k i => g_v a k i + g_v b k i).
Definition gscale (c : R) (a : grad) : grad := mkGrad (fun k => c * g_s a k) (fun k i => c * g_v a k i).
Definition gzero : grad := mkGrad (fun _ => 0) (fun _ _ => 0).

(** __thrustTorqueDeriv, ccblade.py:1490-1734, for output number q of (T, Y, Z, Q, M): the five blocks of code
    differ only in the name and in the row q taken from the adjoints. *)
Definition thrustTorqueDeriv (fx : fixed) (D : design) (j : load_jac) (q : nat) : grad :=
  let n := f_n fx in
  let b := thrustTorque_bv n (j_Np j) (j_Tp j) (x_r D) (x_precurve D) (x_presweep D) (radians (x_precone D))
             (x_Rhub D) (x_Rtip D) (x_precurveTip D) (x_presweepTip D) (eye 0) (eye 1) (eye 2) (eye 3) (eye 4) q in
  let dX := fun k i => tb_np b i * j_NX j k i + tb_tp b i * j_TX j k i in
  let dpc := fun k => asum n (fun i => tb_np b i * j_Npc j k i + tb_tp b i * j_Tpc j k i) in
  mkGrad
    (fun k => nth k
       [asum n (dX 6%nat) + radians (tb_precone b); asum n (dX 7%nat); asum n (dX 8%nat);
        asum n (dX 3%nat) + tb_rhub b; asum n (dX 4%nat) + tb_rtip b; tb_pctip b; tb_pstip b;
        asum n (dX 9%nat); asum n (dX 10%nat); asum n (dX 12%nat); asum n (dX 13%nat); asum n (dX 14%nat)] 0)
    (fun k i => nth k
       [dX 0%nat i + tb_r b i; dX 1%nat i; dX 2%nat i; dpc i + tb_pc b i; dX 5%nat i + tb_ps b i] 0).

(** Totals and their gradients during the sum over azimuths. *)
Record totals_dv := mkTotDv { td_tot : totals; td_T : grad; td_Y : grad; td_Z : grad; td_Q : grad;
  td_My : grad; td_Mz : grad; td_Mb : grad }.
Definition totd0 : totals_dv := mkTotDv tot0 gzero gzero gzero gzero gzero gzero gzero.

(** Contribution of one azimuth (radians), ccblade.py:1281-1325. *)
Definition totd_add (fx : fixed) (D : design) (az : R) (j : load_jac) (t : totals_dv) : totals_dv :=
  let ca := cos az in let sa := sin az in
  let B := INR (f_B fx) in let nsec := INR (f_nSector fx) in
  let '(Tsub, Ysub, Zsub, Qsub, Msub) :=
    thrustTorque (f_n fx) (j_Np j) (j_Tp j) (x_r D) (x_precurve D) (x_presweep D) (radians (x_precone D))
      (x_Rhub D) (x_Rtip D) (x_precurveTip D) (x_presweepTip D) in
  let g := thrustTorqueDeriv fx D j in
  let u := td_tot t in
  mkTotDv
    (mkTot (t_T u + B * Tsub / nsec) (t_Y u + B * (Ysub * ca - Zsub * sa) / nsec)
           (t_Z u + B * (Zsub * ca + Ysub * sa) / nsec) (t_Q u + B * Qsub / nsec)
           (t_My u + B * Msub * ca / nsec) (t_Mz u + B * Msub * sa / nsec) (t_Mb u + Msub / nsec))
    (gadd (td_T t) (gscale (B / nsec) (g 0%nat)))
    (gadd (td_Y t) (gscale (B / nsec) (gadd (gscale ca (g 1%nat)) (gscale (- sa) (g 2%nat)))))
    (gadd (td_Z t) (gscale (B / nsec) (gadd (gscale ca (g 2%nat)) (gscale sa (g 1%nat)))))
    (gadd (td_Q t) (gscale (B / nsec) (g 3%nat)))
    (gadd (td_My t) (gscale (B * ca / nsec) (g 4%nat)))
    (gadd (td_Mz t) (gscale (B * sa / nsec) (g 4%nat)))
    (gadd (td_Mb t) (gscale (1 / nsec) (g 4%nat))).

Definition set_azimuth (D : design) (az : R) : design :=
  mkDesign (x_r D) (x_chord D) (x_theta D) (x_precurve D) (x_presweep D) (x_precone D) (x_tilt D) (x_hubHt D)
    (x_Rhub D) (x_Rtip D) (x_precurveTip D) (x_presweepTip D) (x_yaw D) (x_shear D) az (x_Uinf D) (x_Omega D) (x_pitch D).

(** The loop over azimuths for one condition, ccblade.py:1271-1325. *)
Fixpoint sectors_dv (npi : R) (bq : rootfinder R) (fx : fixed) (D : design) (azs : list R) (t : totals_dv) : res totals_dv :=
  match azs with
  | [] => Ok t
  | az :: azs' =>
      do j <- loads_jac npi bq fx (set_azimuth D (degrees az));
      sectors_dv npi bq fx D azs' (totd_add fx D az j t)
  end.

(** self.rotorR, ccblade.py:604. *)
Definition rotorR_d (D : design) : R :=
  x_Rtip D * cos (radians (x_precone D)) + x_precurveTip D * sin (radians (x_precone D)).

(** ccblade.py:1329-1336: power. *)
Definition dP_of (D : design) (Q : R) (dQ : grad) : grad :=
  mkGrad (fun k => g_s dQ k * x_Omega D * PI / 30 + (if Nat.eqb k 10 then Q * PI / 30 else 0))
         (fun k i => g_v dQ k i * x_Omega D * PI / 30).

(** ccblade.py:1376-1424: the coefficients. [withR] is true for the coefficients of moments, which are also divided
    by the radius. *)
Definition dR_ds (D : design) (k : nat) : R :=
  nth k [radians (- x_Rtip D * sin (radians (x_precone D)) + x_precurveTip D * cos (radians (x_precone D)));
         0; 0; 0; cos (radians (x_precone D)); sin (radians (x_precone D)); 0; 0; 0; 0; 0; 0] 0.
Definition dA_ds (D : design) (k : nat) : R := 2 * PI * rotorR_d D * dR_ds D k.
Definition dU_ds (k : nat) : R := if Nat.eqb k 9 then 1 else 0.
Definition dOmega_ds (k : nat) : R := if Nat.eqb k 10 then 1 else 0.
Definition dq_ds (rho : R) (D : design) (k : nat) : R := rho * x_Uinf D * dU_ds k.
Definition dyn (rho : R) (D : design) : R := 1 / 2 * rho * x_Uinf D ^ 2.
Definition area (D : design) : R := PI * rotorR_d D ^ 2.

Definition dC_force (rho : R) (D : design) (C F : R) (dF : grad) : grad :=
  mkGrad (fun k => C * (g_s dF k / F - dA_ds D k / area D - dq_ds rho D k / dyn rho D))
         (fun k i => g_v dF k i / (dyn rho D * area D)).
Definition dC_moment (rho : R) (D : design) (C F : R) (dF : grad) : grad :=
  mkGrad (fun k => C * (g_s dF k / F - dA_ds D k / area D - dq_ds rho D k / dyn rho D - dR_ds D k / rotorR_d D))
         (fun k i => g_v dF k i / (dyn rho D * rotorR_d D * area D)).
Definition dC_power (rho : R) (D : design) (C Q : R) (dQ : grad) : grad :=
  mkGrad (fun k => C * (g_s dQ k / Q + dOmega_ds k / x_Omega D - dA_ds D k / area D - dq_ds rho D k / dyn rho D
                        - dU_ds k / x_Uinf D))
         (fun k i => g_v dQ k i * C / Q).

(** The dictionaries of evaluate for one condition, ccblade.py:1736-1923. *)
Record tdict := mkTdict {
  e_dprecone : R; e_dtilt : R; e_dhubHt : R; e_dRhub : R; e_dRtip : R; e_dprecurveTip : R; e_dpresweepTip : R;
  e_dyaw : R; e_dshear : R; e_dUinf : R; e_dOmega : R; e_dpitch : R;
  e_dr : arr; e_dchord : arr; e_dtheta : arr; e_dprecurve : arr; e_dpresweep : arr }.
Definition tt_dict (g : grad) : tdict :=
  let s := g_s g in let v := g_v g in
  mkTdict (s 0%nat) (s 1%nat) (s 2%nat) (s 3%nat) (s 4%nat) (s 5%nat) (s 6%nat) (s 7%nat) (s 8%nat) (s 9%nat)
    (s 10%nat) (s 11%nat) (v 0%nat) (v 1%nat) (v 2%nat) (v 3%nat) (v 4%nat).

(** Outputs of evaluate for one condition with their dictionaries. *)
Record eval_dv := mkEval {
  ev_tot : totals; ev_P : R; ev_CT : R; ev_CY : R; ev_CZ : R; ev_CQ : R; ev_CMy : R; ev_CMz : R; ev_CMb : R; ev_CP : R;
  ev_dT : tdict; ev_dY : tdict; ev_dZ : tdict; ev_dQ : tdict; ev_dMy : tdict; ev_dMz : tdict; ev_dMb : tdict; ev_dP : tdict;
  ev_dCT : tdict; ev_dCY : tdict; ev_dCZ : tdict; ev_dCQ : tdict; ev_dCMy : tdict; ev_dCMz : tdict; ev_dCMb : tdict;
  ev_dCP : tdict }.

Definition finish_dv (fx : fixed) (D : design) (t : totals_dv) : eval_dv :=
  let u := td_tot t in
  let rho := f_rho fx in
  let P := t_Q u * x_Omega D * PI / 30 in
  let q := dyn rho D in let A := area D in let Rr := rotorR_d D in
  let CP := P / (q * A * x_Uinf D) in
  let CT := t_T u / (q * A) in let CY := t_Y u / (q * A) in let CZ := t_Z u / (q * A) in
  let CQ := t_Q u / (q * Rr * A) in let CMy := t_My u / (q * Rr * A) in
  let CMz := t_Mz u / (q * Rr * A) in let CMb := t_Mb u / (q * Rr * A) in
  mkEval u P CT CY CZ CQ CMy CMz CMb CP
    (tt_dict (td_T t)) (tt_dict (td_Y t)) (tt_dict (td_Z t)) (tt_dict (td_Q t)) (tt_dict (td_My t)) (tt_dict (td_Mz t))
    (tt_dict (td_Mb t)) (tt_dict (dP_of D (t_Q u) (td_Q t)))
    (tt_dict (dC_force rho D CT (t_T u) (td_T t))) (tt_dict (dC_force rho D CY (t_Y u) (td_Y t)))
    (tt_dict (dC_force rho D CZ (t_Z u) (td_Z t))) (tt_dict (dC_moment rho D CQ (t_Q u) (td_Q t)))
    (tt_dict (dC_moment rho D CMy (t_My u) (td_My t))) (tt_dict (dC_moment rho D CMz (t_Mz u) (td_Mz t)))
    (tt_dict (dC_moment rho D CMb (t_Mb u) (td_Mb t))) (tt_dict (dC_power rho D CP (t_Q u) (td_Q t))).

(** evaluate with derivatives=True, coefficients=True, one condition (the conditions of one call do not interact in
    standard mode, and the dictionaries hold row i for condition i): ccblade.py:1155-1488. *)
Definition evaluate_dv (npi : R) (bq : rootfinder R) (fx : fixed) (D : design) : res eval_dv :=
  do t <- sectors_dv npi bq fx D (azimuths (f_nSector fx)) totd0;
  Ok (finish_dv fx D t).
