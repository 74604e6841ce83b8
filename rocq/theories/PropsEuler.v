(** The dictionaries of derivatives under a change of units (C114). *)
From Coquelicot Require Import Coquelicot.
From Coq Require Import Reals Bool Arith List Lra Lia.
From Verif Require Import Prelim Num Bem DiffSpec BemDiff Blade BladeDiff BladeDiffSpec BladeDvExample EulerSpec EulerProofs.
Import ListNotations.
Open Scope R_scope.

(** ** C114: Euler's relations between the reported derivatives

    Nothing in the loads depends on the unit of length or of time when the airfoils ignore the Reynolds number. If all lengths grow
    at the relative rate a and all speeds at the relative rate b (the rotor speed then at b - a), a load per unit length grows at
    the rate 2 b + a, a force at 2 b + 2 a, a moment at 2 b + 3 a, the power at 3 b + 2 a, and the coefficients do not change. The
    derivatives that the code reports have to add up to this. *)

(** The stations are solved at the design itself: [fun _ => D] is the design that does not change. *)
Theorem C114_section_loads : forall npi bq fx a b D Np Tp dNp dTp, (forall i, re_free (f_af fx i)) ->
  (2 <= f_n fx)%nat -> wind_ok fx (fun _ => D) 0 -> radial_ok (f_n fx) D (scaling_rates a b D) ->
  (forall i, (i < f_n fx)%nat -> station_ok npi bq fx (fun _ => D) 0 i) -> distributed_dv npi bq fx D = Ok (Np, Tp, dNp, dTp) ->
  forall i, (i < f_n fx)%nat -> exists l, station_result npi bq fx D i = Ok l /\
  load_rate (f_n fx) dNp (scaling_rates a b D) i = (2 * b + a) * Np i /\
  (o_ct l <> 0 -> load_rate (f_n fx) dTp (scaling_rates a b D) i = (2 * b + a) * Tp i).
Proof. intros npi bq fx a b D Np Tp dNp dTp Haf. exact (loads_euler npi bq fx a b D Haf Np Tp dNp dTp). Qed.
Print Assumptions C114_section_loads.

Theorem C114_outputs : forall npi bq fx a b D E, (forall i, re_free (f_af fx i)) -> (2 <= f_n fx)%nat -> (1 <= f_nSector fx)%nat ->
  sectors_ok npi bq fx (fun _ => D) 0 (scaling_rates a b D) -> evaluate_dv npi bq fx D = Ok E ->
  let rate e := total_rate (f_n fx) e (scaling_rates a b D) in let t := ev_tot E in
  rate (ev_dT E) = (2 * b + 2 * a) * t_T t /\ rate (ev_dY E) = (2 * b + 2 * a) * t_Y t /\ rate (ev_dZ E) = (2 * b + 2 * a) * t_Z t /\
  rate (ev_dQ E) = (2 * b + 3 * a) * t_Q t /\ rate (ev_dMy E) = (2 * b + 3 * a) * t_My t /\ rate (ev_dMz E) = (2 * b + 3 * a) * t_Mz t /\
  rate (ev_dMb E) = (2 * b + 3 * a) * t_Mb t /\ rate (ev_dP E) = (3 * b + 2 * a) * ev_P E.
Proof. exact evaluate_euler. Qed.
Print Assumptions C114_outputs.

Theorem C114_coefficients : forall npi bq fx a b D E, (forall i, re_free (f_af fx i)) -> (2 <= f_n fx)%nat -> (1 <= f_nSector fx)%nat ->
  sectors_ok npi bq fx (fun _ => D) 0 (scaling_rates a b D) -> evaluate_dv npi bq fx D = Ok E ->
  rotor_radius D <> 0 -> x_Uinf D <> 0 -> f_rho fx <> 0 ->
  let rate e := total_rate (f_n fx) e (scaling_rates a b D) in let t := ev_tot E in
  (t_T t <> 0 -> rate (ev_dCT E) = 0) /\ (t_Y t <> 0 -> rate (ev_dCY E) = 0) /\ (t_Z t <> 0 -> rate (ev_dCZ E) = 0) /\
  (t_Q t <> 0 -> rate (ev_dCQ E) = 0) /\ (t_My t <> 0 -> rate (ev_dCMy E) = 0) /\ (t_Mz t <> 0 -> rate (ev_dCMz E) = 0) /\
  (t_Mb t <> 0 -> rate (ev_dCMb E) = 0) /\ (t_Q t <> 0 -> x_Omega D <> 0 -> rate (ev_dCP E) = 0).
Proof. exact coefficients_euler. Qed.
Print Assumptions C114_coefficients.

Lemma inner_zero n f g : inner n f (fun i => 0 * g i) = 0.
Proof. induction n as [|n IH]; cbn [inner]; [reflexivity|rewrite IH; ring]. Qed.
Lemma inner_none n f : inner n f (fun _ => 0) = 0.
Proof. induction n as [|n IH]; cbn [inner]; [reflexivity|rewrite IH; ring]. Qed.

(** Written out for the speeds (any blade shape): the derivatives by wind speed and rotor speed. *)
Theorem C114_speeds : forall npi bq fx D E, (forall i, re_free (f_af fx i)) -> (2 <= f_n fx)%nat -> (1 <= f_nSector fx)%nat ->
  sectors_ok npi bq fx (fun _ => D) 0 (scaling_rates 0 1 D) -> evaluate_dv npi bq fx D = Ok E ->
  let by_speeds e := e_dUinf e * x_Uinf D + e_dOmega e * x_Omega D in
  by_speeds (ev_dT E) = 2 * t_T (ev_tot E) /\ by_speeds (ev_dQ E) = 2 * t_Q (ev_tot E) /\ by_speeds (ev_dP E) = 3 * ev_P E.
Proof.
  intros npi bq fx D E Haf Hn Hm Hok HE.
  assert (K : forall e, total_rate (f_n fx) e (scaling_rates 0 1 D) = e_dUinf e * x_Uinf D + e_dOmega e * x_Omega D).
  { intros e. unfold total_rate, scaling_rates. cbn [x_r x_chord x_theta x_precurve x_presweep x_precone x_tilt x_hubHt x_Rhub x_Rtip x_precurveTip
      x_presweepTip x_yaw x_shear x_Uinf x_Omega x_pitch]. rewrite !inner_zero, inner_none. ring. }
  destruct (C114_outputs npi bq fx 0 1 D E Haf Hn Hm Hok HE) as (H1 & _ & _ & H4 & _ & _ & _ & H8). rewrite K in H1, H4, H8.
  cbv beta zeta in *. rewrite H1, H4, H8. split; [ring|]. split; ring.
Qed.
Print Assumptions C114_speeds.

(** The rotor of BladeDvExample.v (straight blades, so also the lengths may grow). *)
Lemma const_sectors npi bq fx D v a b : sectors_ok npi bq fx D 10 v -> radial_ok (f_n fx) (D 10) (scaling_rates a b (D 10)) ->
  (forall s, x_shear (D s) = 0) -> x_Omega (D 10) <> 0 ->
  sectors_ok npi bq fx (fun _ => D 10) 0 (scaling_rates a b (D 10)).
Proof.
  intros (_ & H2 & H3) Hr Hs Ho. split; [exact Hr|]. split; [exact H2|]. intros az Haz. destruct (H3 az Haz) as ((W1 & W2 & _) & S1). split.
  - split; [exact W1|]. split; [exact W2|]. intros i Hi. right. intros s. apply (Hs 10).
  - intros i Hi. destruct (S1 i Hi) as [S2 S3]. split; [|exact S3]. left. destruct S2 as [S2|S2]; [|contradiction Ho; apply S2].
    destruct S2 as (K1 & K2 & K3 & phi & _ & K5 & K6 & K7 & K8 & K9). apply locally_singleton in K5.
    refine (conj K1 (conj K2 (conj K3 _))). exists (fun _ => phi 10). split; [apply ex_derive_const|].
    split; [apply filter_forall; intros _; exact K5|]. exact (conj K6 (conj K7 (conj K8 K9))).
Qed.

Example C114_example : forall npi a b, (forall i, re_free (f_af ex_fx i)) /\ sectors_ok npi ex_bq ex_fx (fun _ => ex_D 10) 0 (scaling_rates a b (ex_D 10)) /\
  (exists E, evaluate_dv npi ex_bq ex_fx (ex_D 10) = Ok E /\
    e_dUinf (ev_dP E) * x_Uinf (ex_D 10) + e_dOmega (ev_dP E) * x_Omega (ex_D 10) = 3 * ev_P E) /\
  rotor_radius (ex_D 10) <> 0 /\ x_Uinf (ex_D 10) <> 0 /\ f_rho ex_fx <> 0 /\ x_Omega (ex_D 10) <> 0.
Proof.
  intros npi a b. assert (Haf : forall i, re_free (f_af ex_fx i)) by (intros i alpha Re Re'; reflexivity).
  destruct (ex_evaluate 4 npi 10 ltac:(lra)) as (_ & A & (E & HE) & C & D & F).
  assert (Ho : x_Omega (ex_D 10) <> 0) by (cbn [x_Omega ex_D]; pose proof PI_RGT_0; apply Rgt_not_eq, Rdiv_lt_0_compat; lra).
  assert (Hr : forall a b, radial_ok (f_n ex_fx) (ex_D 10) (scaling_rates a b (ex_D 10))).
  { intros a' b'. right. cbn [f_n ex_fx ex_fxm ex_D x_precurve x_r x_precone]. split; [exists 0; intros j _; apply ex_zero|]. split.
    - intros [|[|j]] Hj; [cbn; lra|lia|lia].
    - rewrite deg0. pose proof PI_RGT_0. lra. }
  assert (Hok : forall a b, sectors_ok npi ex_bq ex_fx (fun _ => ex_D 10) 0 (scaling_rates a b (ex_D 10))).
  { intros a' b'. apply (const_sectors npi ex_bq ex_fx ex_D ex_v); [exact A|apply Hr|reflexivity|exact Ho]. }
  split; [exact Haf|]. split; [apply Hok|]. split.
  - exists E. split; [exact HE|].
    destruct (C114_speeds npi ex_bq ex_fx (ex_D 10) E Haf ltac:(cbn; lia) ltac:(cbn; lia) (Hok 0 1) HE) as (_ & _ & H). exact H.
  - auto.
Qed.
