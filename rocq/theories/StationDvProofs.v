(** Derivatives at one station: __residualDerivatives and __loads. *)
From Coquelicot Require Import Coquelicot.
From Coq Require Import Reals Bool Arith List Lia Lra.
From Verif Require Import Prelim Num Bem IndSpec DiffSpec BemDiff DeriveLib IndDvProofs LinProofs Blade BladeDiff BladeDiffSpec.
Import ListNotations.
Open Scope R_scope.

Lemma inner_add N f g c : inner N (fun k => f k + g k) c = inner N f c + inner N g c.
Proof. induction N; simpl; [ring|]. rewrite IHN. ring. Qed.
Lemma inner_sub N f g c : inner N (fun k => f k - g k) c = inner N f c - inner N g c.
Proof. induction N; simpl; [ring|]. rewrite IHN. ring. Qed.
Lemma inner_scal N a f c : inner N (fun k => a * f k) c = a * inner N f c.
Proof. induction N; simpl; [ring|]. rewrite IHN. ring. Qed.
Lemma inner_scal_r N a f c : inner N (fun k => f k * a) c = inner N f c * a.
Proof. induction N; simpl; [ring|]. rewrite IHN. ring. Qed.
Lemma inner_zero N c : inner N (fun _ => 0) c = 0.
Proof. induction N; simpl; [ring|]. rewrite IHN. ring. Qed.
Lemma inner_zero_r N f c : (forall k, (k < N)%nat -> c k = 0) -> inner N f c = 0.
Proof. induction N; simpl; intros H; [ring|]. rewrite IHN by (intros; apply H; lia). rewrite H by lia. ring. Qed.
Lemma eye_same j : eye j j = 1.
Proof. unfold eye. rewrite Nat.eqb_refl. reflexivity. Qed.
Lemma eye_diff j k : j <> k -> eye j k = 0.
Proof. intros H. unfold eye. destruct (Nat.eqb_spec j k); [contradiction|reflexivity]. Qed.
Lemma inner_eye N j c : inner N (eye j) c = if Nat.ltb j N then c j else 0.
Proof.
  induction N as [|N IH]; cbn [inner]; [reflexivity|]. rewrite IH.
  destruct (Nat.ltb_spec j N), (Nat.ltb_spec j (S N)); try lia.
  - rewrite eye_diff by lia. ring.
  - replace N with j by lia. rewrite eye_same. ring.
  - rewrite eye_diff by lia. ring.
Qed.
Ltac inn := repeat first [rewrite inner_add | rewrite inner_sub | rewrite inner_scal | rewrite inner_scal_r];
  rewrite ?inner_eye, ?inner_zero; cbn [Nat.ltb Nat.leb].

Lemma d_comp2 (f : R -> R -> R) (u v : R -> R) (t u' v' lx ly : R) :
  differentiable_pt_lim f (u t) (v t) lx ly -> is_derive u t u' -> is_derive v t v' ->
  is_derive (fun s => f (u s) (v s)) t (lx * u' + ly * v').
Proof.
  intros Hf Hu Hv. apply is_derive_Reals. apply derivable_pt_lim_comp_2d; [exact Hf| |]; apply is_derive_Reals; assumption.
Qed.

(** relativeWind without induction. *)
Lemma rw_free (phi Vx Vy pitch chord theta rho mu : R) :
  relativeWind phi 0 0 Vx Vy pitch chord theta rho mu =
  (phi - (theta + pitch), sqrt (Vx ^ 2 + Vy ^ 2), rho * sqrt (Vx ^ 2 + Vy ^ 2) * chord / mu).
Proof.
  unfold relativeWind. cbn [nlt nabs ofR nmul nadd nsub ndiv nsqrt R_arith].
  replace (rltb 10 (Rabs 0)) with false by (symmetry; apply rltb_false; rewrite Rabs_R0; lra).
  replace (Vx * (1 - 0) * (Vx * (1 - 0)) + Vy * (1 + 0) * (Vy * (1 + 0))) with (Vx ^ 2 + Vy ^ 2) by ring.
  reflexivity.
Qed.

(** The state at a station after one pass. *)
Section Station.
Variables (rt : rotor R) (af : airfoil R) (afd : airfoil_dv).
Variables (X : nat -> R -> R) (t : R) (d : nat -> R).
Hypothesis HX : curves_derive 9 X t d.
Let xt := at_time X t.
Hypothesis Hreg : regular_station rt af afd xt.

Let cl s := fst (af (aoa (at_time X s)) (Re0 rt (at_time X s))).
Let cd s := snd (af (aoa (at_time X s)) (Re0 rt (at_time X s))).
Let ind s := inductionFactors (rt_opts rt) (rt_B rt) (X 5%nat s) (X 1%nat s) (X 6%nat s) (X 7%nat s) (X 0%nat s) (cl s) (cd s)
               (X 3%nat s) (X 4%nat s).

Lemma bem_loop_0 s : bem_loop (rotor_at rt (at_time X s)) (sect_at af (at_time X s)) (X 0%nat s) 0 =
  (out_fzero (ind s), out_a (ind s), out_ap (ind s), cl s, cd s).
Proof.
  unfold bem_loop, bem_pass. cbn [ofR R_arith].
  cbn [rotor_at sect_at s_Vx s_Vy s_chord s_theta s_r s_af rt_pitch rt_rho rt_mu rt_opts rt_B rt_Rhub rt_Rtip at_time].
  rewrite rw_free. unfold ind, cl, cd, aoa, Re0, W0, at_time.
  destruct (af _ _) as [c1 c2]. cbn [fst snd].
  destruct (inductionFactors _ _ _ _ _ _ _ _ _ _ _) as [[f1 f2] f3]. reflexivity.
Qed.

Let Hd k : (k < 9)%nat -> is_derive (X k) t (d k) := HX k.
Let D := residualDerivatives (rotor_at rt xt) (xt 0%nat) (sect_at af xt) afd.
Let dRv := fst (fst D).
Let dav := snd (fst D).
Let dapv := snd D.

Let cla := fst (fst (fst (afd (aoa xt) (Re0 rt xt)))).
Let clr := snd (fst (fst (afd (aoa xt) (Re0 rt xt)))).
Let cda := snd (fst (afd (aoa xt) (Re0 rt xt))).
Let cdr := snd (afd (aoa xt) (Re0 rt xt)).
Let dalpha := d 0%nat - d 2%nat - d 8%nat.
Let dRe := Re0 rt xt / xt 1%nat * d 1%nat + Re0 rt xt * xt 3%nat / W0 xt ^ 2 * d 3%nat + Re0 rt xt * xt 4%nat / W0 xt ^ 2 * d 4%nat.

Lemma W0_pos : 0 < W0 xt.
Proof.
  destruct Hreg as (_ & _ & H3 & _). unfold W0. apply sqrt_lt_R0.
  pose proof (pow2_gt_0 _ H3). pose proof (pow2_ge_0 (xt 4%nat)). lra.
Qed.

Lemma aoa_d : is_derive (fun s => aoa (at_time X s)) t dalpha.
Proof. unfold aoa, at_time. pose proof (Hd 0 ltac:(lia)). pose proof (Hd 2 ltac:(lia)). pose proof (Hd 8 ltac:(lia)).
  der. unfold dalpha. ring. Qed.

Lemma Re0_d : is_derive (fun s => Re0 rt (at_time X s)) t dRe.
Proof.
  pose proof W0_pos as P. destruct Hreg as (Hmu & H1 & _). unfold Re0, W0, at_time in *.
  assert (Q : 0 < X 3%nat t ^ 2 + X 4%nat t ^ 2).
  { apply Rnot_le_lt. intros Q. unfold xt, at_time in P. rewrite sqrt_neg_0 in P by exact Q. lra. }
  pose proof (Hd 1 ltac:(lia)). pose proof (Hd 3 ltac:(lia)). pose proof (Hd 4 ltac:(lia)).
  der; [exact Q|exact Hmu|].
  unfold dRe, Re0, W0, xt, at_time. unfold xt, at_time in P, H1.
  set (w := sqrt (X 3%nat t ^ 2 + X 4%nat t ^ 2)) in *. field. repeat split; auto; lra.
Qed.

Lemma cl_d : is_derive cl t (cla * dalpha + clr * dRe).
Proof.
  destruct Hreg as (_ & _ & _ & _ & Hs & _). unfold smooth_airfoil in Hs. unfold cla, clr.
  destruct (afd (aoa xt) (Re0 rt xt)) as [[[a1 a2] a3] a4]. destruct Hs as [Hs _].
  apply (d_comp2 (fun a r => fst (af a r)) _ _ t dalpha dRe); [exact Hs|exact aoa_d|exact Re0_d].
Qed.
Lemma cd_d : is_derive cd t (cda * dalpha + cdr * dRe).
Proof.
  destruct Hreg as (_ & _ & _ & _ & Hs & _). unfold smooth_airfoil in Hs. unfold cda, cdr.
  destruct (afd (aoa xt) (Re0 rt xt)) as [[[a1 a2] a3] a4]. destruct Hs as [_ Hs].
  apply (d_comp2 (fun a r => snd (af a r)) _ _ t dalpha dRe); [exact Hs|exact aoa_d|exact Re0_d].
Qed.

(** Seeds of the call of inductionfactors_dv. *)
Let dcl k := cla * dalpha_dx k + clr * dRe_dx (Re0 rt xt) (W0 xt) (xt 1%nat) (xt 3%nat) (xt 4%nat) k.
Let dcd k := cda * dalpha_dx k + cdr * dRe_dx (Re0 rt xt) (W0 xt) (xt 1%nat) (xt 3%nat) (xt 4%nat) k.
Let S9 : nat -> nat -> R := fun j => nth j [eye 5; eye 1; eye 6; eye 7; eye 0; dcl; dcd; eye 3; eye 4] (fun _ => 0).

Lemma D_form : D = let v := inductionFactors_dv (rt_opts rt) (rt_B rt) (xt 5%nat) (S9 0%nat) (xt 1%nat) (S9 1%nat) (xt 6%nat)
    (S9 2%nat) (xt 7%nat) (S9 3%nat) (xt 0%nat) (S9 4%nat) (cl t) (S9 5%nat) (cd t) (S9 6%nat) (xt 3%nat) (S9 7%nat) (xt 4%nat) (S9 8%nat) in
  (iv_fzerod v, iv_ad v, iv_apd v).
Proof.
  unfold D, residualDerivatives.
  cbn [rotor_at sect_at s_Vx s_Vy s_chord s_theta s_r s_af rt_pitch rt_rho rt_mu rt_opts rt_B rt_Rhub rt_Rtip].
  rewrite rw_free. unfold cl, cd. fold xt.
  change (xt 0%nat - (xt 2%nat + xt 8%nat)) with (aoa xt).
  change (rt_rho rt * sqrt (xt 3%nat ^ 2 + xt 4%nat ^ 2) * xt 1%nat / rt_mu rt) with (Re0 rt xt).
  change (sqrt (xt 3%nat ^ 2 + xt 4%nat ^ 2)) with (W0 xt).
  unfold S9, dcl, dcd, cla, clr, cda, cdr.
  destruct (af (aoa xt) (Re0 rt xt)) as [c1 c2]. destruct (afd (aoa xt) (Re0 rt xt)) as [[[a1 a2] a3] a4]. reflexivity.
Qed.

Lemma inner_dcl : inner 9 dcl d = cla * dalpha + clr * dRe.
Proof. unfold dcl. inn. unfold dalpha, dRe. cbn [inner dalpha_dx dRe_dx nth]. ring. Qed.
Lemma inner_dcd : inner 9 dcd d = cda * dalpha + cdr * dRe.
Proof. unfold dcd. inn. unfold dalpha, dRe. cbn [inner dalpha_dx dRe_dx nth]. ring. Qed.

Lemma ind_d : is_derive (fun s => out_fzero (ind s)) t (inner 9 dRv d) /\ is_derive (fun s => out_a (ind s)) t (inner 9 dav d) /\
  is_derive (fun s => out_ap (ind s)) t (inner 9 dapv d).
Proof.
  unfold dRv, dav, dapv. rewrite D_form. cbv zeta. cbn [fst snd].
  destruct (ind_comb (rt_opts rt) (rt_B rt) (xt 5%nat) (xt 1%nat) (xt 6%nat) (xt 7%nat) (xt 0%nat) (cl t) (cd t) (xt 3%nat) (xt 4%nat)
     S9 9 d 0) as (E1 & E2 & E3).
  rewrite E1, E2, E3. clear E1 E2 E3. unfold S9 at 1 2 3 4 5 6 7 8 9 10 11 12 13 14 15 16 17 18 19 20 21 22 23 24 25 26 27. cbn [nth].
  rewrite !inner_eye, inner_dcl, inner_dcd. cbn [Nat.ltb Nat.leb].
  pose proof Hreg as (Hmu & H1 & H3 & H4 & Hs & Hi).
  replace (af (aoa xt) (Re0 rt xt)) with (cl t, cd t) in Hi by (unfold cl, cd; destruct (af _ _); reflexivity).
  destruct Hi as (I1 & I2 & I3 & I4 & I5).
  destruct (inductionFactors_dv_exact (rt_opts rt) (rt_B rt) (X 5%nat) (X 1%nat) (X 6%nat) (X 7%nat) (X 0%nat) cl cd (X 3%nat) (X 4%nat) t
    (fun _ => d 5%nat) (fun _ => d 1%nat) (fun _ => d 6%nat) (fun _ => d 7%nat) (fun _ => d 0%nat) (fun _ => cla * dalpha + clr * dRe)
    (fun _ => cda * dalpha + cdr * dRe) (fun _ => d 3%nat) (fun _ => d 4%nat) 0) as (_ & R1 & R2 & R3);
    try (apply Hd; lia); try exact cl_d; try exact cd_d; try assumption.
  split; [exact R1|split; [exact R2|exact R3]].
Qed.

Lemma residual_exact : is_derive (fun s => station_res rt af (at_time X s)) t (inner 9 dRv d).
Proof.
  apply (is_derive_ext (fun s => out_fzero (ind s))); [|apply ind_d].
  intros s. unfold station_res, errf. rewrite bem_loop_0. reflexivity.
Qed.


End Station.

(** ** __loads *)
Lemma ok4_inj {A B C E} (a a' : A) (b b' : B) (c c' : C) (e e' : E) : Ok (a, b, c, e) = Ok (a', b', c', e') ->
  a = a' /\ b = b' /\ c = c' /\ e = e'.
Proof. intros H. inversion H. auto. Qed.

Section Loads.
Variables (rt : rotor R) (af : airfoil R) (afd : airfoil_dv) (rot : bool).
Variables (X : nat -> R -> R) (t : R) (d : nat -> R).
Hypothesis HX : curves_derive 9 X t d.
Variables (a ap cl cd : R -> R) (dav dapv : dirs) (cl' cd' : R).
Let rw s := relativeWind (X 0%nat s) (a s) (ap s) (X 3%nat s) (X 4%nat s) (X 8%nat s) (X 1%nat s) (X 2%nat s) (rt_rho rt) (rt_mu rt).
Let cn s := cl s * cos (X 0%nat s) + cd s * sin (X 0%nat s).
Let ct s := cl s * sin (X 0%nat s) - cd s * cos (X 0%nat s).
Let q s := 1 / 2 * rt_rho rt * (out_W (rw s) * out_W (rw s)).
Let form s := mkLoad (a s) (ap s) (cn s * q s * X 1%nat s) (ct s * q s * X 1%nat s) (out_alpha (rw s) * (180 / PI))
                (cl s) (cd s) (cn s) (ct s) (q s) (out_W (rw s)) (out_Re (rw s)).
Hypothesis Hform : forall s, X 3%nat s <> 0 -> X 4%nat s <> 0 ->
  loads (rotor_at rt (at_time X s)) (X 0%nat s) rot (sect_at af (at_time X s)) = Ok (form s).
Hypothesis Ha : is_derive a t (inner 9 dav d).
Hypothesis Hap : is_derive ap t (inner 9 dapv d).
Hypothesis Hcl : is_derive cl t cl'.
Hypothesis Hcd : is_derive cd t cd'.
Hypothesis H3 : X 3%nat t <> 0.
Hypothesis H4 : X 4%nat t <> 0.
Hypothesis Hmu : rt_mu rt <> 0.
Hypothesis Hwb : wind_branch (X 0%nat t) (a t) (ap t) (X 3%nat t) (X 4%nat t).
Let S8 : nat -> dirs := fun j => nth j [eye 0; dav; dapv; eye 3; eye 4; eye 8; eye 1; eye 2] (fun _ => 0).
Let D := relativeWind_dv (X 0%nat t) (S8 0%nat) (a t) (S8 1%nat) (ap t) (S8 2%nat) (X 3%nat t) (S8 3%nat) (X 4%nat t) (S8 4%nat)
           (X 8%nat t) (S8 5%nat) (X 1%nat t) (S8 6%nat) (X 2%nat t) (S8 7%nat) (rt_rho rt) (rt_mu rt).

Lemma alphad_D k : rw_alphad D k = eye 0 k - eye 2 k - eye 8 k.
Proof. unfold D, relativeWind_dv. destruct (rltb _ _); [reflexivity|]. destruct (rltb _ _); reflexivity. Qed.

Lemma rw_d : rw t = (rw_alpha D, rw_w D, rw_re D) /\ is_derive (fun s => out_W (rw s)) t (inner 9 (rw_wd D) d) /\
  is_derive (fun s => out_Re (rw s)) t (inner 9 (rw_red D) d).
Proof.
  assert (HX' : forall k, (k < 9)%nat -> is_derive (X k) t (d k)) by exact HX.
  destruct (rel_comb (X 0%nat t) (a t) (ap t) (X 3%nat t) (X 4%nat t) (X 8%nat t) (X 1%nat t) (X 2%nat t) (rt_rho rt) (rt_mu rt)
     S8 9 d 0) as (E1 & E2 & E3).
  assert (V1 : rw t = (rw_alpha D, rw_w D, rw_re D)).
  { destruct (relativeWind_dv_exact (fun _ => X 0%nat t) (fun _ => a t) (fun _ => ap t) (fun _ => X 3%nat t) (fun _ => X 4%nat t)
      (fun _ => X 8%nat t) (fun _ => X 1%nat t) (fun _ => X 2%nat t) (rt_rho rt) (rt_mu rt) t
      (fun _ => 0) (fun _ => 0) (fun _ => 0) (fun _ => 0) (fun _ => 0) (fun _ => 0) (fun _ => 0) (fun _ => 0) 0) as (V & _);
      try apply d_const; try assumption.
    unfold rw. rewrite V. unfold D, relativeWind_dv. destruct (rltb _ _); [reflexivity|]. destruct (rltb _ _); reflexivity. }
  split; [exact V1|].
  fold D in E1, E2, E3. rewrite E2, E3. clear E1 E2 E3.
  unfold S8 at 1 2 3 4 5 6 7 8 9 10 11 12 13 14 15 16. cbn [nth].
  rewrite !inner_eye. cbn [Nat.ltb Nat.leb].
  destruct (relativeWind_dv_exact (X 0%nat) a ap (X 3%nat) (X 4%nat) (X 8%nat) (X 1%nat) (X 2%nat) (rt_rho rt) (rt_mu rt) t
    (fun _ => d 0%nat) (fun _ => inner 9 dav d) (fun _ => inner 9 dapv d) (fun _ => d 3%nat) (fun _ => d 4%nat) (fun _ => d 8%nat)
    (fun _ => d 1%nat) (fun _ => d 2%nat) 0) as (V & _ & Dw & Dr); try (apply HX'; lia); try assumption.
  split; [exact Dw|exact Dr].
Qed.

(** The branch of __loads for a station with wind. *)
Variables (l : sload R) (dNp dTp dR : dirs).
Hypothesis Hres : (if rot then residualDerivatives (rotor_at rt (at_time X t)) (X 0%nat t) (sect_at af (at_time X t)) afd
  else (eye 0, (fun _ : nat => 0), (fun _ : nat => 0))) = (dR, dav, dapv).
Hypothesis Hl : loads_dv (rotor_at rt (at_time X t)) (X 0%nat t) rot (sect_at af (at_time X t)) afd = Ok (l, dNp, dTp, dR).
Let A4 := afd (rw_alpha D) (rw_re D).
Let dcl k := fst (fst (fst A4)) * rw_alphad D k + snd (fst (fst A4)) * rw_red D k.
Let dcd k := snd (fst A4) * rw_alphad D k + snd A4 * rw_red D k.
Hypothesis Ecl : inner 9 dcl d = cl'.
Hypothesis Ecd : inner 9 dcd d = cd'.
Hypothesis Hrot : rot = false -> d 0%nat = 0.
Let dphi : dirs := if rot then eye 0 else (fun _ : nat => 0).
Let dcn k := dcl k * cos (X 0%nat t) - cl t * sin (X 0%nat t) * dphi k + dcd k * sin (X 0%nat t) + cd t * cos (X 0%nat t) * dphi k.
Let dct k := dcl k * sin (X 0%nat t) + cl t * cos (X 0%nat t) * dphi k - dcd k * cos (X 0%nat t) + cd t * sin (X 0%nat t) * dphi k.

Lemma loads_dv_form : cn t <> 0 /\ out_W (rw t) <> 0 /\ X 1%nat t <> 0 /\ l = form t /\
  dNp = (fun k => o_Np (form t) * (1 / cn t * dcn k + 2 / out_W (rw t) * rw_wd D k + 1 / X 1%nat t * eye 1 k)) /\
  dTp = (fun k => o_Tp (form t) * (1 / ct t * dct k + 2 / out_W (rw t) * rw_wd D k + 1 / X 1%nat t * eye 1 k)).
Proof.
  destruct rw_d as (V & _). pose proof Hl as H. unfold loads_dv, loads_dv_with, load_slope in H. cbn [sect_at s_Vx s_Vy] in H.
  change (at_time X t 3%nat) with (X 3%nat t) in H. change (at_time X t 4%nat) with (X 4%nat t) in H.
  replace (reqb (X 3%nat t) 0) with false in H by (symmetry; apply reqb_false; exact H3).
  replace (reqb (X 4%nat t) 0) with false in H by (symmetry; apply reqb_false; exact H4).
  cbn [andb negb] in H. fold (sect_at af (at_time X t)) in H.
  change (mkSect _ _ _ _ _ _) with (sect_at af (at_time X t)) in H.
  rewrite (Hform t H3 H4) in H. cbn [bind] in H. rewrite Hres in H.
  change (relativeWind_dv _ _ _ _ _ _ _ _ _ _ _ _ _ _ _ _ _ _) with D in H.
  assert (VW : out_W (rw t) = rw_w D) by (rewrite V; reflexivity).
  unfold dcn, dct, dcl, dcd, dphi, A4. rewrite VW. destruct (afd (rw_alpha D) (rw_re D)) as [[[a1 a2] a3] a4]. cbn [fst snd].
  change (o_cn (form t)) with (cn t) in H. change (s_chord (sect_at af (at_time X t))) with (X 1%nat t) in H.
  destruct (reqb (cn t) 0) eqn:B1; [discriminate H|].
  destruct (reqb (rw_w D) 0) eqn:B2; [discriminate H|].
  destruct (reqb (X 1%nat t) 0) eqn:B3; [discriminate H|].
  rb_hyps. cbn [orb] in H. destruct (ok4_inj _ _ _ _ _ _ _ _ H) as (Q1 & Q2 & Q3 & _).
  repeat split; try assumption; [symmetry; exact Q1|rewrite <- Q2; reflexivity|rewrite <- Q3; reflexivity].
Qed.

Lemma X_near3 : locally t (fun s => X 3%nat s <> 0 /\ X 4%nat s <> 0).
Proof.
  apply filter_and; (eapply near_ne; [apply HX; lia|assumption]).
Qed.

Lemma inner_dphi : inner 9 dphi d = d 0%nat.
Proof. unfold dphi. destruct rot; [now rewrite inner_eye|]. rewrite inner_zero, (Hrot eq_refl). reflexivity. Qed.

Lemma Np_exact : is_derive (fun s => station_Np rt rot af (at_time X s)) t (inner 9 dNp d).
Proof.
  destruct loads_dv_form as (C0 & W0' & C1 & _ & EN & _).
  apply (is_derive_ext_loc (fun s => cn s * q s * X 1%nat s)).
  { generalize X_near3. apply filter_imp. intros s [N3 N4]. unfold station_Np. change (at_time X s 0%nat) with (X 0%nat s).
    rewrite (Hform s N3 N4). reflexivity. }
  destruct rw_d as (_ & HW & _). pose proof (HX 0%nat ltac:(lia)) as HX0. pose proof (HX 1%nat ltac:(lia)) as HX1.
  unfold cn, q. set (w := fun s => out_W (rw s)) in *. change (fun s => cl s * cos (X 0%nat s) + cd s * sin (X 0%nat s)) with cn.
  der.
  rewrite EN. inn. unfold dcn. inn.
  rewrite Ecl, Ecd, inner_dphi. cbn [form o_Np]. unfold q. fold (cn t). field. repeat split; assumption.
Qed.

Lemma Tp_exact : ct t <> 0 -> is_derive (fun s => station_Tp rt rot af (at_time X s)) t (inner 9 dTp d).
Proof.
  intros T0. destruct loads_dv_form as (C0 & W0' & C1 & _ & _ & EN).
  apply (is_derive_ext_loc (fun s => ct s * q s * X 1%nat s)).
  { generalize X_near3. apply filter_imp. intros s [N3 N4]. unfold station_Tp. change (at_time X s 0%nat) with (X 0%nat s).
    rewrite (Hform s N3 N4). reflexivity. }
  destruct rw_d as (_ & HW & _). pose proof (HX 0%nat ltac:(lia)) as HX0. pose proof (HX 1%nat ltac:(lia)) as HX1.
  unfold ct, q. set (w := fun s => out_W (rw s)) in *.
  der.
  rewrite EN. inn. unfold dct. inn.
  rewrite Ecl, Ecd, inner_dphi. cbn [form o_Tp]. unfold q. fold (ct t). field. repeat split; assumption.
Qed.
End Loads.

(** ** Gradients *)
Lemma rotor_at_ext rt x y : (forall i, (i < 9)%nat -> x i = y i) -> rotor_at rt x = rotor_at rt y.
Proof. intros H. unfold rotor_at. rewrite !H by lia. reflexivity. Qed.
Lemma sect_at_ext af x y : (forall i, (i < 9)%nat -> x i = y i) -> sect_at af x = sect_at af y.
Proof. intros H. unfold sect_at. rewrite !H by lia. reflexivity. Qed.
Lemma aoa_ext x y : (forall i, (i < 9)%nat -> x i = y i) -> aoa x = aoa y.
Proof. intros H. unfold aoa. rewrite !H by lia. reflexivity. Qed.
Lemma Re0_ext rt x y : (forall i, (i < 9)%nat -> x i = y i) -> Re0 rt x = Re0 rt y.
Proof. intros H. unfold Re0, W0. rewrite !H by lia. reflexivity. Qed.
Lemma regular_ext rt af afd x y : (forall i, (i < 9)%nat -> x i = y i) -> regular_station rt af afd x -> regular_station rt af afd y.
Proof.
  intros H. unfold regular_station. rewrite (aoa_ext x y H), (Re0_ext rt x y H), !H by lia. auto.
Qed.

Lemma res_gradient rt af afd x : regular_station rt af afd x ->
  gradient 9 (station_res rt af) x (fst (fst (residualDerivatives (rotor_at rt x) (x 0%nat) (sect_at af x) afd))).
Proof.
  intros H X t d E HX. assert (E' : forall i, (i < 9)%nat -> x i = at_time X t i) by (intros; symmetry; apply E; assumption).
  rewrite (rotor_at_ext rt _ _ E'), (sect_at_ext af _ _ E'), (E' 0%nat) by lia.
  apply residual_exact; [exact HX|]. exact (regular_ext _ _ _ _ _ E' H).
Qed.

Lemma smooth_const af afd alpha Re Re' : re_free af -> smooth_airfoil af afd alpha Re -> smooth_airfoil af afd alpha Re' ->
  fst (fst (fst (afd alpha Re))) = fst (fst (fst (afd alpha Re'))) /\ snd (fst (fst (afd alpha Re))) = 0 /\
  snd (fst (afd alpha Re)) = snd (fst (afd alpha Re')) /\ snd (afd alpha Re) = 0.
Proof.
  intros Hf. unfold smooth_airfoil. destruct (afd alpha Re) as [[[a1 a2] a3] a4]. destruct (afd alpha Re') as [[[b1 b2] b3] b4].
  cbn [fst snd]. intros [H1 H2] [K1 K2].
  assert (U : forall (f : R -> R -> R) p q p' q', (forall a r r', f a r = f a r') ->
    differentiable_pt_lim f alpha Re p q -> differentiable_pt_lim f alpha Re' p' q' -> p = p' /\ q = 0).
  { intros f p q p' q' Hc G1 G2.
    pose proof (differentiable_pt_lim_unique _ _ _ _ _ G1) as [P1 P2].
    pose proof (differentiable_pt_lim_unique _ _ _ _ _ G2) as [P3 _]. split.
    - rewrite <- P1, <- P3. apply Derive_ext. intros; apply Hc.
    - rewrite <- P2. rewrite (Derive_ext _ (fun _ => f alpha 0)); [apply Derive_const|]. intros; apply Hc. }
  destruct (U _ _ _ _ _ (fun a r r' => f_equal fst (Hf a r r')) H1 K1).
  destruct (U _ _ _ _ _ (fun a r r' => f_equal snd (Hf a r r')) H2 K2). auto.
Qed.

Lemma loads_rot rt af s (X : nat -> R -> R) : rt_iterRe rt = 1%nat -> X 3%nat s <> 0 -> X 4%nat s <> 0 ->
  let cl := fst (af (aoa (at_time X s)) (Re0 rt (at_time X s))) in
  let cd := snd (af (aoa (at_time X s)) (Re0 rt (at_time X s))) in
  let ind := inductionFactors (rt_opts rt) (rt_B rt) (X 5%nat s) (X 1%nat s) (X 6%nat s) (X 7%nat s) (X 0%nat s) cl cd (X 3%nat s) (X 4%nat s) in
  let rw := relativeWind (X 0%nat s) (out_a ind) (out_ap ind) (X 3%nat s) (X 4%nat s) (X 8%nat s) (X 1%nat s) (X 2%nat s) (rt_rho rt) (rt_mu rt) in
  let cn := cl * cos (X 0%nat s) + cd * sin (X 0%nat s) in
  let ct := cl * sin (X 0%nat s) - cd * cos (X 0%nat s) in
  let q := 1 / 2 * rt_rho rt * (out_W rw * out_W rw) in
  loads (rotor_at rt (at_time X s)) (X 0%nat s) true (sect_at af (at_time X s)) =
  Ok (mkLoad (out_a ind) (out_ap ind) (cn * q * X 1%nat s) (ct * q * X 1%nat s) (out_alpha rw * (180 / PI)) cl cd cn ct q (out_W rw) (out_Re rw)).
Proof.
  intros Hi H3 H4. unfold loads, runBEM.
  cbn [rotor_at sect_at s_Vx s_Vy s_chord s_theta s_r s_af rt_pitch rt_rho rt_mu rt_opts rt_B rt_Rhub rt_Rtip rt_iterRe].
  rewrite Hi. change (at_time X s 3%nat) with (X 3%nat s). change (at_time X s 4%nat) with (X 4%nat s).
  cbn [neq ofR R_arith].
  replace (reqb (X 3%nat s) 0) with false by (symmetry; apply reqb_false; exact H3).
  replace (reqb (X 4%nat s) 0) with false by (symmetry; apply reqb_false; exact H4). cbn [andb negb].
  pose proof (bem_loop_0 rt af X s) as E. cbv zeta in E.
  change (mkRotor _ _ _ _ _ _ _ _) with (rotor_at rt (at_time X s)) in *.
  change (mkSect _ _ _ _ _ _) with (sect_at af (at_time X s)) in *.
  rewrite E. cbn [bind]. destruct (relativeWind _ _ _ _ _ _ _ _ _ _) as [[al w] re] eqn:ER.
  reflexivity.
Qed.

Lemma loads_park rt af s (X : nat -> R -> R) : X 3%nat s <> 0 -> X 4%nat s <> 0 ->
  let cl := fst (af (aoa (at_time X s)) (Re0 rt (at_time X s))) in
  let cd := snd (af (aoa (at_time X s)) (Re0 rt (at_time X s))) in
  let rw := relativeWind (X 0%nat s) 0 0 (X 3%nat s) (X 4%nat s) (X 8%nat s) (X 1%nat s) (X 2%nat s) (rt_rho rt) (rt_mu rt) in
  let cn := cl * cos (X 0%nat s) + cd * sin (X 0%nat s) in
  let ct := cl * sin (X 0%nat s) - cd * cos (X 0%nat s) in
  let q := 1 / 2 * rt_rho rt * (out_W rw * out_W rw) in
  loads (rotor_at rt (at_time X s)) (X 0%nat s) false (sect_at af (at_time X s)) =
  Ok (mkLoad 0 0 (cn * q * X 1%nat s) (ct * q * X 1%nat s) (out_alpha rw * (180 / PI)) cl cd cn ct q (out_W rw) (out_Re rw)).
Proof.
  intros H3 H4. unfold loads.
  cbn [rotor_at sect_at s_Vx s_Vy s_chord s_theta s_r s_af rt_pitch rt_rho rt_mu rt_opts rt_B rt_Rhub rt_Rtip rt_iterRe].
  change (at_time X s 3%nat) with (X 3%nat s). change (at_time X s 4%nat) with (X 4%nat s).
  cbn [neq ofR R_arith].
  replace (reqb (X 3%nat s) 0) with false by (symmetry; apply reqb_false; exact H3).
  replace (reqb (X 4%nat s) 0) with false by (symmetry; apply reqb_false; exact H4). cbn [andb negb].
  unfold aoa, Re0, W0, at_time. rewrite !rw_free. cbn [fst snd out_alpha out_W out_Re].
  destruct (af _ _) as [c1 c2]. cbn [bind fst snd]. rewrite rw_free. reflexivity.
Qed.

(** Loads of a rotating station; the airfoil does not depend on Re. *)
Lemma loads_gradient_rot rt af afd x l dNp dTp dR :
  rt_iterRe rt = 1%nat -> re_free af -> regular_station rt af afd x -> (forall Re, smooth_airfoil af afd (aoa x) Re) ->
  loads_dv (rotor_at rt x) (x 0%nat) true (sect_at af x) afd = Ok (l, dNp, dTp, dR) ->
  wind_branch (x 0%nat) (o_a l) (o_ap l) (x 3%nat) (x 4%nat) ->
  gradient 9 (station_Np rt true af) x dNp /\ (o_ct l <> 0 -> gradient 9 (station_Tp rt true af) x dTp) /\
  gradient 9 (station_res rt af) x dR.
Proof.
  intros Hi Hf Hreg Hsm Hl Hwb.
  pose proof Hreg as (Hmu & H1 & H3 & H4 & Hs & Hi').
  destruct (residualDerivatives (rotor_at rt x) (x 0%nat) (sect_at af x) afd) as [[dR' dav] dapv] eqn:ED.
  assert (EdR : dR = dR').
  { pose proof Hl as H. unfold loads_dv, loads_dv_with, load_slope in H. cbn [sect_at s_Vx s_Vy] in H.
    replace (reqb (x 3%nat) 0) with false in H by (symmetry; apply reqb_false; exact H3).
    replace (reqb (x 4%nat) 0) with false in H by (symmetry; apply reqb_false; exact H4).
    cbn [andb negb] in H. change (mkSect _ _ _ _ _ _) with (sect_at af x) in H.
    rewrite ED in H. destruct (loads _ _ _ _) as [l'|]; [|discriminate H]. cbn [bind] in H.
    destruct (afd _ _) as [[[? ?] ?] ?]. match type of H with (if ?b then _ else _) = _ => destruct b end; [discriminate H|].
    destruct (ok4_inj _ _ _ _ _ _ _ _ H) as (_ & _ & _ & E). symmetry. exact E. }
  subst dR'.
  assert (G : forall X t d, (forall i, (i < 9)%nat -> X i t = x i) -> curves_derive 9 X t d ->
     is_derive (fun s => station_Np rt true af (at_time X s)) t (inner 9 dNp d) /\
     (o_ct l <> 0 -> is_derive (fun s => station_Tp rt true af (at_time X s)) t (inner 9 dTp d))).
  { intros X t d E HX. assert (E' : forall i, (i < 9)%nat -> x i = at_time X t i) by (intros; symmetry; apply E; assumption).
    pose proof (regular_ext _ _ _ _ _ E' Hreg) as Hreg'.
    rewrite (rotor_at_ext rt _ _ E'), (sect_at_ext af _ _ E'), (E' 0%nat) in Hl, ED by lia.
    rewrite (aoa_ext _ _ E') in Hsm.
    rewrite (E' 0%nat), (E' 3%nat), (E' 4%nat) in Hwb by lia.
    rewrite (E' 3%nat) in H3 by lia. rewrite (E' 4%nat) in H4 by lia.
    destruct (ind_d rt af afd X t d HX Hreg') as (_ & DA & DAP). rewrite ED in DA, DAP. cbn [fst snd] in DA, DAP.
    pose proof (cl_d rt af afd X t d HX Hreg') as DCL. pose proof (cd_d rt af afd X t d HX Hreg') as DCD.
    cbv zeta in DA, DAP, DCL, DCD.
    pose proof (loads_rot rt af t X Hi H3 H4) as LR. cbv zeta in LR.
    assert (El : loads (rotor_at rt (at_time X t)) (X 0%nat t) true (sect_at af (at_time X t)) = Ok l).
    { pose proof Hl as H. unfold loads_dv, loads_dv_with, load_slope in H. cbn [sect_at s_Vx s_Vy] in H.
      change (at_time X t 3%nat) with (X 3%nat t) in *. change (at_time X t 4%nat) with (X 4%nat t) in *.
      replace (reqb (X 3%nat t) 0) with false in H by (symmetry; apply reqb_false; exact H3).
      replace (reqb (X 4%nat t) 0) with false in H by (symmetry; apply reqb_false; exact H4).
      cbn [andb negb] in H. change (mkSect _ _ _ _ _ _) with (sect_at af (at_time X t)) in H.
      rewrite ED in H. change (at_time X t 0%nat) with (X 0%nat t) in H.
      destruct (loads _ _ _ _) as [l'|]; [|discriminate H]. cbn [bind] in H.
      match type of H with context [afd ?u ?v] => destruct (afd u v) as [[[? ?] ?] ?] end. match type of H with (if ?b then _ else _) = _ => destruct b end; [discriminate H|].
      destruct (ok4_inj _ _ _ _ _ _ _ _ H) as (E1 & _). rewrite E1. reflexivity. }
    rewrite LR in El. assert (El' := f_equal (fun r => match r with Ok v => v | Raise _ => l end) El). cbv beta iota in El'. clear El.
    rewrite <- El' in Hwb. cbn [o_a o_ap] in Hwb.
    assert (Hform := fun s h3 h4 => loads_rot rt af s X Hi h3 h4). cbv zeta in Hform.
    set (Sd := fun j => nth j [eye 0; dav; dapv; eye 3; eye 4; eye 8; eye 1; eye 2] (fun _ => 0)).
    set (ind := inductionFactors (rt_opts rt) (rt_B rt) (X 5%nat t) (X 1%nat t) (X 6%nat t) (X 7%nat t) (X 0%nat t) _ _ (X 3%nat t) (X 4%nat t)) in *.
    set (DD := relativeWind_dv (X 0%nat t) (eye 0) (out_a ind) dav (out_ap ind) dapv (X 3%nat t) (eye 3) (X 4%nat t) (eye 4)
                 (X 8%nat t) (eye 8) (X 1%nat t) (eye 1) (X 2%nat t) (eye 2) (rt_rho rt) (rt_mu rt)).
    assert (AL : rw_alpha DD = aoa (at_time X t)).
    { unfold DD, relativeWind_dv. destruct (rltb _ _); [reflexivity|]. destruct (rltb _ _); reflexivity. }
    assert (ALD : forall k, rw_alphad DD k = eye 0 k - eye 2 k - eye 8 k).
    { intros k. unfold DD, relativeWind_dv. destruct (rltb _ _); [reflexivity|]. destruct (rltb _ _); reflexivity. }
    destruct (smooth_const af afd _ (rw_re DD) (Re0 rt (at_time X t)) Hf (Hsm (rw_re DD)) (Hsm _)) as (Q1 & Q2 & Q3 & Q4).
    destruct (smooth_const af afd _ (Re0 rt (at_time X t)) (rw_re DD) Hf (Hsm _) (Hsm (rw_re DD))) as (_ & Q5 & _ & Q6).
    assert (IA : inner 9 (rw_alphad DD) d = d 0%nat - d 2%nat - d 8%nat).
    { replace (rw_alphad DD) with (fun k => eye 0 k - eye 2 k - eye 8 k); [inn; reflexivity|].
      apply FunctionalExtensionality.functional_extensionality. intros k. symmetry. apply ALD. }
    split.
    - eapply (Np_exact rt af afd true X t d HX _ _ _ _ dav dapv _ _ Hform DA DAP DCL DCD H3 H4 Hmu Hwb l dNp dTp dR ED Hl).
      + inn. change (relativeWind_dv _ _ _ _ _ _ _ _ _ _ _ _ _ _ _ _ _ _) with DD. rewrite IA, AL, Q1, Q2, Q5. ring.
      + inn. change (relativeWind_dv _ _ _ _ _ _ _ _ _ _ _ _ _ _ _ _ _ _) with DD. rewrite IA, AL, Q3, Q4, Q6. ring.
      + discriminate.
    - intros T0. rewrite <- El' in T0. cbn [o_ct] in T0.
      eapply (Tp_exact rt af afd true X t d HX _ _ _ _ dav dapv _ _ Hform DA DAP DCL DCD H3 H4 Hmu Hwb l dNp dTp dR ED Hl).
      + inn. change (relativeWind_dv _ _ _ _ _ _ _ _ _ _ _ _ _ _ _ _ _ _) with DD. rewrite IA, AL, Q1, Q2, Q5. ring.
      + inn. change (relativeWind_dv _ _ _ _ _ _ _ _ _ _ _ _ _ _ _ _ _ _) with DD. rewrite IA, AL, Q3, Q4, Q6. ring.
      + discriminate.
      + exact T0. }
  split; [|split].
  - intros X t d E HX. apply (G X t d E HX).
  - intros T0 X t d E HX. apply (G X t d E HX). exact T0.
  - replace dR with (fst (fst (residualDerivatives (rotor_at rt x) (x 0%nat) (sect_at af x) afd))) by (rewrite ED; reflexivity).
    apply res_gradient. exact Hreg.
Qed.

(** Loads of a parked station: the angle phi is a constant. *)
Lemma loads_gradient_park rt af afd phi x l dNp dTp dR :
  rt_mu rt <> 0 -> x 2%nat <> 0 -> x 3%nat <> 0 -> smooth_airfoil af afd (aoa (with_phi phi x)) (Re0 rt (with_phi phi x)) ->
  loads_dv (rotor_at rt (with_phi phi x)) phi false (sect_at af (with_phi phi x)) afd = Ok (l, dNp, dTp, dR) ->
  gradient 8 (fun y => station_Np rt false af (with_phi phi y)) x (total dNp dR) /\
  (o_ct l <> 0 -> gradient 8 (fun y => station_Tp rt false af (with_phi phi y)) x (total dTp dR)).
Proof.
  intros Hmu H3 H4 Hsm Hl.
  assert (EdR : dR = eye 0).
  { pose proof Hl as H. unfold loads_dv, loads_dv_with, load_slope in H. cbn [sect_at s_Vx s_Vy with_phi] in H.
    replace (reqb (x 2%nat) 0) with false in H by (symmetry; apply reqb_false; exact H3).
    replace (reqb (x 3%nat) 0) with false in H by (symmetry; apply reqb_false; exact H4).
    cbn [andb negb] in H.
    match type of H with bind ?u _ = _ => destruct u as [l'|]; [|discriminate H] end. cbn [bind] in H.
    match type of H with context [afd ?u ?v] => destruct (afd u v) as [[[? ?] ?] ?] end.
    match type of H with (if ?b then _ else _) = _ => destruct b end; [discriminate H|].
    destruct (ok4_inj _ _ _ _ _ _ _ _ H) as (_ & _ & _ & E). symmetry. exact E. }
  assert (ET : forall f : dirs, total f dR = fun j => f (S j)).
  { intros f. apply FunctionalExtensionality.functional_extensionality. intros j. unfold total. rewrite EdR.
    rewrite eye_same, eye_diff by lia. field. }
  rewrite !ET.
  assert (IN : forall (f d : nat -> R), inner 9 f (with_phi 0 d) = inner 8 (fun j => f (S j)) d).
  { intros f d. cbn [inner with_phi]. ring. }
  assert (G : forall X t d, (forall i, (i < 8)%nat -> X i t = x i) -> curves_derive 8 X t d ->
     is_derive (fun s => station_Np rt false af (with_phi phi (at_time X s))) t (inner 8 (fun j => dNp (S j)) d) /\
     (o_ct l <> 0 -> is_derive (fun s => station_Tp rt false af (with_phi phi (at_time X s))) t (inner 8 (fun j => dTp (S j)) d))).
  { intros Y t d0 EY HY.
    set (X := fun k => match k with O => fun _ : R => phi | S j => Y j end).
    assert (HX : curves_derive 9 X t (with_phi 0 d0)).
    { intros [|k] Hk; [apply d_const|]. apply HY. lia. }
    rewrite <- !IN. set (d := with_phi 0 d0) in *.
    assert (XA : forall s k, (k < 9)%nat -> with_phi phi (at_time Y s) k = at_time X s k) by (intros s [|k] _; reflexivity).
    assert (E' : forall i, (i < 9)%nat -> with_phi phi x i = at_time X t i).
    { intros [|k] Hk; [reflexivity|]. cbn. symmetry. apply EY. lia. }
    rewrite (rotor_at_ext rt _ _ E'), (sect_at_ext af _ _ E') in Hl by lia.
    rewrite (aoa_ext _ _ E'), (Re0_ext rt _ _ E') in Hsm.
    assert (K3 : X 3%nat t <> 0) by (change (X 3%nat t) with (Y 2%nat t); rewrite (EY 2%nat) by lia; exact H3).
    assert (K4 : X 4%nat t <> 0) by (change (X 4%nat t) with (Y 3%nat t); rewrite (EY 3%nat) by lia; exact H4).
    assert (Hform := fun s h3 h4 => loads_park rt af s X h3 h4). cbv zeta in Hform.
    pose proof (loads_park rt af t X K3 K4) as LR. cbv zeta in LR.
    assert (El : loads (rotor_at rt (at_time X t)) (X 0%nat t) false (sect_at af (at_time X t)) = Ok l).
    { pose proof Hl as H. unfold loads_dv, loads_dv_with, load_slope in H. cbn [sect_at s_Vx s_Vy] in H.
      change (at_time X t 3%nat) with (X 3%nat t) in *. change (at_time X t 4%nat) with (X 4%nat t) in *.
      replace (reqb (X 3%nat t) 0) with false in H by (symmetry; apply reqb_false; exact K3).
      replace (reqb (X 4%nat t) 0) with false in H by (symmetry; apply reqb_false; exact K4).
      cbn [andb negb] in H. change (mkSect _ _ _ _ _ _) with (sect_at af (at_time X t)) in H.
      change phi with (X 0%nat t) in H.
      destruct (loads _ _ _ _) as [l'|]; [|discriminate H]. cbn [bind] in H.
      match type of H with context [afd ?u ?v] => destruct (afd u v) as [[[? ?] ?] ?] end.
      match type of H with (if ?b then _ else _) = _ => destruct b end; [discriminate H|].
      destruct (ok4_inj _ _ _ _ _ _ _ _ H) as (E1 & _). rewrite E1. reflexivity. }
    rewrite LR in El. assert (El' := f_equal (fun r => match r with Ok v => v | Raise _ => l end) El). cbv beta iota in El'. clear El.
    assert (Hwb : wind_branch (X 0%nat t) 0 0 (X 3%nat t) (X 4%nat t)).
    { right. right. rewrite Rabs_R0. split; [lra|]. split; [lra|]. left. intros Q. apply K3. lra. }
    set (z := fun _ : nat => 0).
    assert (DZ : is_derive (fun _ : R => 0) t (inner 9 z d)) by (unfold z; rewrite inner_zero; apply d_const).
    set (DD := relativeWind_dv (X 0%nat t) (eye 0) 0 z 0 z (X 3%nat t) (eye 3) (X 4%nat t) (eye 4)
                 (X 8%nat t) (eye 8) (X 1%nat t) (eye 1) (X 2%nat t) (eye 2) (rt_rho rt) (rt_mu rt)).
    destruct (rw_d rt X t d HX (fun _ => 0) (fun _ => 0) z z DZ DZ Hmu Hwb) as (RV & _ & RR).
    change (relativeWind_dv _ _ _ _ _ _ _ _ _ _ _ _ _ _ _ _ _ _) with DD in RV, RR.
    rewrite rw_free in RV.
    assert (AL : rw_alpha DD = aoa (at_time X t)) by (apply (f_equal out_alpha) in RV; symmetry; exact RV).
    assert (RL : rw_re DD = Re0 rt (at_time X t)) by (apply (f_equal out_Re) in RV; symmetry; exact RV).
    assert (RR' : is_derive (fun s => Re0 rt (at_time X s)) t (inner 9 (rw_red DD) d)).
    { eapply is_derive_ext; [|exact RR]. intros s. cbv beta. rewrite rw_free. reflexivity. }
    assert (ALD : forall k, rw_alphad DD k = eye 0 k - eye 2 k - eye 8 k).
    { intros k. unfold DD, relativeWind_dv. destruct (rltb _ _); reflexivity. }
    assert (IA : inner 9 (rw_alphad DD) d = d 0%nat - d 2%nat - d 8%nat).
    { replace (rw_alphad DD) with (fun k => eye 0 k - eye 2 k - eye 8 k); [inn; reflexivity|].
      apply FunctionalExtensionality.functional_extensionality. intros k. symmetry. apply ALD. }
    pose proof (aoa_d X t d HX) as DAL. cbv zeta in DAL.
    unfold smooth_airfoil in Hsm. rewrite <- AL, <- RL in Hsm.
    destruct (afd (rw_alpha DD) (rw_re DD)) as [[[a1 a2] a3] a4] eqn:EA. destruct Hsm as [S1 S2]. rewrite AL, RL in S1, S2.
    pose proof (d_comp2 (fun a r => fst (af a r)) (fun s => aoa (at_time X s)) (fun s => Re0 rt (at_time X s)) t _ _ _ _ S1 DAL RR') as DCL.
    pose proof (d_comp2 (fun a r => snd (af a r)) (fun s => aoa (at_time X s)) (fun s => Re0 rt (at_time X s)) t _ _ _ _ S2 DAL RR') as DCD.
    cbv beta in DCL, DCD.
    assert (Hres : (eye 0, (fun _ : nat => 0), (fun _ : nat => 0)) = (dR, z, z)) by (rewrite EdR; reflexivity).
    split.
    - apply (is_derive_ext (fun s => station_Np rt false af (at_time X s))).
      { intros s. unfold station_Np. rewrite (rotor_at_ext rt _ _ (XA s)), (sect_at_ext af _ _ (XA s)). reflexivity. }
      eapply (Np_exact rt af afd false X t d HX (fun _ => 0) (fun _ => 0) _ _ z z _ _ Hform DZ DZ DCL DCD K3 K4 Hmu Hwb l dNp dTp dR Hres Hl).
      + inn. change (relativeWind_dv _ _ _ _ _ _ _ _ _ _ _ _ _ _ _ _ _ _) with DD. rewrite IA, EA. reflexivity.
      + inn. change (relativeWind_dv _ _ _ _ _ _ _ _ _ _ _ _ _ _ _ _ _ _) with DD. rewrite IA, EA. reflexivity.
      + reflexivity.
    - intros T0. rewrite <- El' in T0. cbn [o_ct] in T0.
      apply (is_derive_ext (fun s => station_Tp rt false af (at_time X s))).
      { intros s. unfold station_Tp. rewrite (rotor_at_ext rt _ _ (XA s)), (sect_at_ext af _ _ (XA s)). reflexivity. }
      eapply (Tp_exact rt af afd false X t d HX (fun _ => 0) (fun _ => 0) _ _ z z _ _ Hform DZ DZ DCL DCD K3 K4 Hmu Hwb l dNp dTp dR Hres Hl).
      + inn. change (relativeWind_dv _ _ _ _ _ _ _ _ _ _ _ _ _ _ _ _ _ _) with DD. rewrite IA, EA. reflexivity.
      + inn. change (relativeWind_dv _ _ _ _ _ _ _ _ _ _ _ _ _ _ _ _ _ _) with DD. rewrite IA, EA. reflexivity.
      + reflexivity.
      + exact T0. }
  split.
  - intros X t d E HX. apply (G X t d E HX).
  - intros T0 X t d E HX. apply (G X t d E HX). exact T0.
Qed.

(** The total derivative: x = phi, design variables; phi follows the design so that the residual stays zero. *)
Lemma total_exact (N Res : (nat -> R) -> R) (x gN gR : nat -> R) (X : nat -> R -> R) (t : R) (d : nat -> R) :
  gradient 9 N x gN -> gradient 9 Res x gR -> gR 0%nat <> 0 ->
  (forall i, (i < 9)%nat -> X i t = x i) -> curves_derive 9 X t d ->
  locally t (fun s => Res (at_time X s) = 0) ->
  is_derive (fun s => N (at_time X s)) t (inner 8 (total gN gR) (fun j => d (S j))).
Proof.
  intros HN HR G0 E HX Hz.
  pose proof (HN X t d E HX) as DN. pose proof (HR X t d E HX) as DR.
  assert (Z : inner 9 gR d = 0).
  { assert (D0 : is_derive (fun _ : R => 0) t (inner 9 gR d)).
    { apply (is_derive_ext_loc (fun s => Res (at_time X s))); [exact Hz|exact DR]. }
    rewrite <- (is_derive_unique _ _ _ D0). apply Derive_const. }
  replace (inner 8 (total gN gR) (fun j => d (S j))) with (inner 9 gN d); [exact DN|].
  assert (S9 : forall g, inner 9 g d = g 0%nat * d 0%nat + inner 8 (fun j => g (S j)) (fun j => d (S j))) by (intros g; cbn [inner]; ring).
  rewrite S9 in Z |- *. unfold total. inn.
  set (I := inner 8 (fun j => gR (S j)) (fun j => d (S j))) in *.
  replace (d 0%nat) with (- I / gR 0%nat) by (apply (Rmult_eq_reg_l (gR 0%nat)); [field_simplify; lra|exact G0]).
  field. exact G0.
Qed.
