(** The generated derivative routines are linear in the direction: the derivative
    along a combination of seed directions is the combination of the derivatives. *)
From Coq Require Import Reals Bool Arith Lia Lra FunctionalExtensionality.
From Verif Require Import Prelim Num Bem BemDiff DiffSpec.
Open Scope R_scope.

Definition linf (E : (nat -> R) -> R) : Prop := forall u v c, E (fun j => u j + c * v j) = E u + c * E v.

Lemma linf_proj k : linf (fun v => v k).
Proof. intros u v c. reflexivity. Qed.
Lemma linf_0 : linf (fun _ => 0).
Proof. intros u v c. ring. Qed.
Lemma linf_opp E : linf E -> linf (fun v => - E v).
Proof. intros H u v c. rewrite H. ring. Qed.
Lemma linf_plus E F : linf E -> linf F -> linf (fun v => E v + F v).
Proof. intros H K u v c. rewrite H, K. ring. Qed.
Lemma linf_minus E F : linf E -> linf F -> linf (fun v => E v - F v).
Proof. intros H K u v c. rewrite H, K. ring. Qed.
Lemma linf_mul_l a E : linf E -> linf (fun v => a * E v).
Proof. intros H u v c. rewrite H. ring. Qed.
Lemma linf_mul_r a E : linf E -> linf (fun v => E v * a).
Proof. intros H u v c. rewrite H. ring. Qed.
Lemma linf_div a E : linf E -> linf (fun v => E v / a).
Proof. intros H u v c. rewrite H. unfold Rdiv. ring. Qed.
Lemma linf_if (b : bool) E F : linf E -> linf F -> linf (fun v => if b then E v else F v).
Proof. destruct b; auto. Qed.

Ltac lin_step :=
  match goal with
  | H : linf ?E |- linf ?E => exact H
  | H : linf ?E |- linf (fun v => ?E v) => exact H
  | |- linf (fun _ => 0) => apply linf_0
  | |- linf (fun v => v _) => apply linf_proj
  | |- linf (fun v => - @?E v) => apply (linf_opp E)
  | |- linf (fun v => @?E v + @?F v) => apply (linf_plus E F)
  | |- linf (fun v => @?E v - @?F v) => apply (linf_minus E F)
  | |- linf (fun v => ?a * @?E v) => apply (linf_mul_l a E)
  | |- linf (fun v => @?E v * ?a) => apply (linf_mul_r a E)
  | |- linf (fun v => @?E v / ?a) => apply (linf_div a E)
  | |- linf (fun v => if ?b then @?E v else @?F v) => apply (linf_if b E F)
  end.
Ltac lin := repeat (cbv beta; lin_step).

Lemma linf_zero E : linf E -> E (fun _ => 0) = 0.
Proof.
  intros H. pose proof (H (fun _ => 0) (fun _ => 0) 1) as K. cbv beta in K.
  replace (fun _ : nat => 0 + 1 * 0) with (fun _ : nat => 0) in K by (apply functional_extensionality; intros; ring). lra.
Qed.

Lemma linf_comb E N (S : nat -> nat -> R) (c : nat -> R) : linf E ->
  inner N (fun nd => E (fun j => S j nd)) c = E (fun j => inner N (S j) c).
Proof.
  intros H. induction N as [|N IH]; simpl.
  - symmetry. apply linf_zero. exact H.
  - rewrite IH. rewrite Rmult_comm, <- H. f_equal. apply functional_extensionality. intros j. ring.
Qed.

(** ** INDUCTIONFACTORS_DV *)
Lemma linf_ext E F : (forall v, E v = F v) -> linf F -> linf E.
Proof. intros H K u v c. rewrite !H. apply K. Qed.

Lemma acos_linear a E : linf E -> linf (fun v => acos_dv a (E v)).
Proof. intros H. unfold acos_dv. destruct (orb _ _); lin. Qed.

(** [S j nd]: seed of input number j in direction nd. *)
Definition dir (S : nat -> nat -> R) (nd : nat) : nat -> R := fun j => S j nd.

Section Ind.
Variables (o : bemopts) (b : nat) (r chord rhub rtip phi cl cd vx vy : R).
Notation locs S :=
  (bem_locals_dv o b r (S 0%nat) chord (S 1%nat) rhub (S 2%nat) rtip (S 3%nat)
     phi (S 4%nat) cl (S 5%nat) cd (S 6%nat)).

(** The locals: values do not depend on the direction, derivatives are linear in it. *)
Lemma locals_linear : exists sphi cphi f k kp SD CD FD KD KPD,
  (linf SD /\ linf CD /\ linf FD /\ linf KD /\ linf KPD) /\
  (forall v : nat -> R, let S := fun j (_ : nat) => v j in
     locs S = mkLocDv sphi (fun _ => SD v) cphi (fun _ => CD v) f (fun _ => FD v) k (fun _ => KD v) kp (fun _ => KPD v)) /\
  forall S, locs S = mkLocDv sphi (fun nd => SD (dir S nd)) cphi (fun nd => CD (dir S nd)) f (fun nd => FD (dir S nd))
     k (fun nd => KD (dir S nd)) kp (fun nd => KPD (dir S nd)).
Proof.
  unfold bem_locals_dv.
  destruct (useCd o), (tipLoss o), (hubLoss o); cbv zeta; cbn [negb].
  all: do 10 eexists; (split; [|split; [intros v; reflexivity|intros S; reflexivity]]); cbv beta.
  all: repeat split.
  all: repeat (cbv beta; first [lin_step | match goal with |- linf (fun v => acos_dv ?a (@?E v)) => apply (acos_linear a E) end]).
Qed.

Lemma axial_pos_linear k f KD FD : linf KD -> linf FD -> exists a AD, linf AD /\
  (forall v, axial_pos_dv k (fun _ => KD v) f (fun _ => FD v) = (a, fun _ => AD v)) /\
  forall S, axial_pos_dv k (fun nd => KD (dir S nd)) f (fun nd => FD (dir S nd)) = (a, fun nd => AD (dir S nd)).
Proof.
  intros H K. unfold axial_pos_dv. cbv zeta. destruct (rleb k (2 / 3)).
  - do 2 eexists. split; [|split; [intros v; reflexivity|intros S; reflexivity]]. lin.
  - match goal with |- context [if rltb ?x ?y then _ else _] => destruct (rltb x y) end;
      do 2 eexists; (split; [|split; [intros v; reflexivity|intros S; reflexivity]]); lin.
Qed.
Lemma axial_neg_linear k KD : linf KD -> exists a AD, linf AD /\
  (forall v, axial_neg_dv k (fun _ => KD v) = (a, fun _ => AD v)) /\
  forall S, axial_neg_dv k (fun nd => KD (dir S nd)) = (a, fun nd => AD (dir S nd)).
Proof.
  intros H. unfold axial_neg_dv. cbv zeta. destruct (rltb 1 k);
    do 2 eexists; (split; [|split; [intros v; reflexivity|intros S; reflexivity]]); lin.
Qed.

Notation ifdv S := (inductionFactors_dv o b r (S 0%nat) chord (S 1%nat) rhub (S 2%nat) rtip (S 3%nat)
     phi (S 4%nat) cl (S 5%nat) cd (S 6%nat) vx (S 7%nat) vy (S 8%nat)).

Lemma ind_linear : exists fz a ap FZ AD APD, (linf FZ /\ linf AD /\ linf APD) /\
  forall S, ifdv S = mkIndDv fz (fun nd => FZ (dir S nd)) a (fun nd => AD (dir S nd)) ap (fun nd => APD (dir S nd)).
Proof.
  destruct locals_linear as (sphi & cphi & f & k & kp & SD & CD & FD & KD & KPD & (H1 & H2 & H3 & H4 & H5) & HL0 & HL).
  assert (AX : exists a AD, linf AD /\
     (forall v, (if rltb 0 phi then axial_pos_dv k (fun _ => KD v) f (fun _ => FD v)
       else axial_neg_dv k (fun _ => KD v)) = (a, fun _ => AD v)) /\
     (forall S, (if rltb 0 phi then axial_pos_dv k (fun nd => KD (dir S nd)) f (fun nd => FD (dir S nd))
       else axial_neg_dv k (fun nd => KD (dir S nd))) = (a, fun nd => AD (dir S nd)))).
  { destruct (rltb 0 phi); [apply axial_pos_linear | apply axial_neg_linear]; assumption. }
  destruct AX as (a & AD & HA & EA0 & EA).
  unfold inductionFactors_dv.
  assert (EX : exists fz ap FZ APD, (linf FZ /\ linf APD) /\ (forall v : nat -> R, let S := fun j (_ : nat) => v j in
     ifdv S = mkIndDv fz (fun _ => FZ v) a (fun _ => AD v) ap (fun _ => APD v)) /\
    forall S, ifdv S = mkIndDv fz (fun nd => FZ (dir S nd)) a (fun nd => AD (dir S nd)) ap (fun nd => APD (dir S nd))).
  { unfold inductionFactors_dv.
    destruct (rltb 0 phi), (wakerotation o); do 4 eexists; (split; [|split; [intros v; cbv zeta beta; pose proof (HL0 v) as HH; cbv zeta beta in HH; rewrite HH; clear HH;
      cbn [v_sphi v_sphid v_cphi v_cphid v_f v_fd v_k v_kd v_kp v_kpd]; rewrite (EA0 v); cbv zeta; cbn [negb]; reflexivity
     |intros S; rewrite (HL S);
      cbn [v_sphi v_sphid v_cphi v_cphid v_f v_fd v_k v_kd v_kp v_kpd]; rewrite (EA S); cbv zeta; cbn [negb]; reflexivity]]);
      repeat split; lin. }
  destruct EX as (fz & ap & FZ & APD & (K1 & K2) & _ & K3).
  exists fz, a, ap, FZ, AD, APD. repeat split; assumption.
Qed.

(** A combination of directions. *)
Lemma ind_comb S N (c : nat -> R) nd : let T := fun j (_ : nat) => inner N (S j) c in
  inner N (iv_fzerod (ifdv S)) c = iv_fzerod (ifdv T) nd /\ inner N (iv_ad (ifdv S)) c = iv_ad (ifdv T) nd /\
  inner N (iv_apd (ifdv S)) c = iv_apd (ifdv T) nd.
Proof.
  intros T. destruct ind_linear as (fz & a & ap & FZ & AD & APD & (H1 & H2 & H3) & E).
  rewrite (E S), (E T). cbn [iv_fzerod iv_ad iv_apd]. unfold dir, T.
  repeat split; apply linf_comb; assumption.
Qed.
End Ind.

(** ** RELATIVEWIND_DV *)
Section Rel.
Variables (phi a ap vx vy pitch chord theta rho mu : R).
Notation rwdv S := (relativeWind_dv phi (S 0%nat) a (S 1%nat) ap (S 2%nat) vx (S 3%nat) vy (S 4%nat) pitch (S 5%nat)
    chord (S 6%nat) theta (S 7%nat) rho mu).

Lemma rel_linear : exists al w re AL WD RD, (linf AL /\ linf WD /\ linf RD) /\
  (forall v : nat -> R, let S := fun j (_ : nat) => v j in
     rwdv S = mkRwDv al (fun _ => AL v) w (fun _ => WD v) re (fun _ => RD v)) /\
  forall S, rwdv S = mkRwDv al (fun nd => AL (dir S nd)) w (fun nd => WD (dir S nd)) re (fun nd => RD (dir S nd)).
Proof.
  unfold relativeWind_dv.
  match goal with |- context [if rltb 10 ?x then _ else if rltb 10 ?y then _ else _] => destruct (rltb 10 x), (rltb 10 y) end;
    cbv zeta; do 6 eexists; (split; [|split; [intros v; reflexivity|intros S; reflexivity]]); cbv beta; repeat split; lin.
Qed.

Lemma rel_comb S N (c : nat -> R) nd : let T := fun j (_ : nat) => inner N (S j) c in
  inner N (rw_alphad (rwdv S)) c = rw_alphad (rwdv T) nd /\ inner N (rw_wd (rwdv S)) c = rw_wd (rwdv T) nd /\
  inner N (rw_red (rwdv S)) c = rw_red (rwdv T) nd.
Proof.
  intros T. destruct rel_linear as (al & w & re & AL & WD & RD & (H1 & H2 & H3) & _ & E).
  rewrite (E S), (E T). cbn [rw_alphad rw_wd rw_red]. unfold dir, T.
  repeat split; apply linf_comb; assumption.
Qed.
End Rel.

(** ** WINDCOMPONENTS_DV.  Seeds y = [r, precurve, presweep, precone, tilt, hubHt, yaw, shear, azimuth, Uinf, Omega]. *)
Section Wind.
Variables (n : nat) (r pc ps : arr) (precone yaw tilt azimuth uinf rpm hubht shear : R).
Notation wdv S := (windComponents_dv n r (fun nd i => S i nd) pc (fun nd i => S (n + i)%nat nd)
    ps (fun nd i => S (2 * n + i)%nat nd) precone (S (3 * n)%nat) yaw (S (3 * n + 3)%nat) tilt (S (3 * n + 1)%nat)
    azimuth (S (3 * n + 5)%nat) uinf (S (3 * n + 6)%nat) rpm (S (3 * n + 7)%nat) hubht (S (3 * n + 2)%nat)
    shear (S (3 * n + 4)%nat)).

Lemma pow_linear a e PD ED : linf PD -> linf ED -> linf (fun v => pow_dv a (PD v) e (ED v)).
Proof. intros H K. unfold pow_dv. destruct (andb _ _); [lin|]. destruct (rleb a 0); lin. Qed.

Lemma wind_linear i : exists VX VY, (linf VX /\ linf VY) /\
  forall S nd, wv_vxd (wdv S) nd i = VX (dir S nd) /\ wv_vyd (wdv S) nd i = VY (dir S nd).
Proof.
  exists (fun v => wv_vxd (wdv (fun j (_ : nat) => v j)) 0%nat i), (fun v => wv_vyd (wdv (fun j (_ : nat) => v j)) 0%nat i).
  split; [|intros S nd; split; reflexivity].
  unfold windComponents_dv, defineCurvature_dv. cbv zeta.
  cbn [wv_vxd wv_vyd cv_x cv_xd cv_y cv_yd cv_z cv_zd cv_cone cv_coned].
  unfold curv_coned, seg_coned, curv_xd, curv_zd. cbv zeta.
  split; repeat (cbv beta; first [lin_step
   | match goal with |- linf (fun v => pow_dv ?a (@?P v) ?e (@?Q v)) => apply (pow_linear a e P Q) end]).
Qed.

Lemma wind_comb S N (c : nat -> R) nd i : let T := fun j (_ : nat) => inner N (S j) c in
  inner N (fun k => wv_vxd (wdv S) k i) c = wv_vxd (wdv T) nd i /\
  inner N (fun k => wv_vyd (wdv S) k i) c = wv_vyd (wdv T) nd i.
Proof.
  intros T. destruct (wind_linear i) as (VX & VY & (H1 & H2) & E).
  destruct (E T nd) as (-> & ->).
  split.
  - transitivity (inner N (fun k => VX (dir S k)) c); [|apply (linf_comb VX N S c H1)].
    clear - E. induction N as [|N IH]; cbn [inner]; [reflexivity|]. rewrite IH. destruct (E S N) as (-> & _). reflexivity.
  - transitivity (inner N (fun k => VY (dir S k)) c); [|apply (linf_comb VY N S c H2)].
    clear - E. induction N as [|N IH]; cbn [inner]; [reflexivity|]. rewrite IH. destruct (E S N) as (_ & ->). reflexivity.
Qed.
End Wind.
