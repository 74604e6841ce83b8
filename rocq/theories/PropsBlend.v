(** Property theorems about blending in steps (C127, C128). *)
From Coq Require Import Reals List Lra Lia.
From Verif Require Import Prelim Interp Polar InterpSpec PolarSpec BlendSpec InterpProofs PolarProofs BlendProofs.
Import ListNotations.
Open Scope R_scope.

(** ** C127: blending polars in steps *)

(** A blend of two blends of the same two polars is one blend of them, with the averaged weight. *)
Theorem C127_between : forall p q a u v w b1 b2, wf_polar p -> wf_polar q -> covers p a -> covers q a ->
  polar_blend p q u = Ok b1 -> polar_blend p q v = Ok b2 -> polar_blend b1 b2 w = polar_blend p q ((1 - w) * u + w * v).
Proof.
  intros p q a u v w b1 b2 Hp Hq Cp Cq E1 E2. rewrite (blend_eq p q u Hp Hq) in E1. rewrite (blend_eq p q v Hp Hq) in E2. apply ok_inj in E1. apply ok_inj in E2. subst.
  exact (blend_steps p q a Hp Hq Cp Cq u v w).
Qed.
Print Assumptions C127_between.

(** Going on from a blend towards one of its ends. *)
Theorem C127_toward : forall p q a u w b, wf_polar p -> wf_polar q -> covers p a -> covers q a -> polar_blend p q u = Ok b ->
  polar_blend b q w = polar_blend p q (1 - (1 - u) * (1 - w)) /\ polar_blend p b w = polar_blend p q (u * w).
Proof.
  intros p q a u w b Hp Hq Cp Cq E. rewrite (blend_eq p q u Hp Hq) in E. apply ok_inj in E. subst.
  split; [exact (blend_toward p q a Hp Hq Cp Cq u w)|exact (blend_from p q a u w Hp Hq Cp Cq)].
Qed.
Print Assumptions C127_toward.

(** Without a common angle the blend has no rows, and nothing can be blended with it any more. *)
Theorem C127_no_common_angle : forall p q u w b, wf_polar p -> wf_polar q -> (forall a, ~ (covers p a /\ covers q a)) -> polar_blend p q u = Ok b ->
  p_alpha b = [] /\ polar_blend b q w = Raise ValueError /\ polar_blend p b w = Raise ValueError.
Proof. exact blend_apart. Qed.
Print Assumptions C127_no_common_angle.

(** Exchanging two airfoils and the weight. *)
Theorem C127_airfoil_swap : forall a1 a2 w c, a1 <> [] -> a2 <> [] -> sorted_by_Re a1 -> sorted_by_Re a2 ->
  Forall wf_polar (a1 ++ a2) -> Forall (fun p => covers p c) (a1 ++ a2) -> airfoil_blend a2 a1 (1 - w) = airfoil_blend a1 a2 w.
Proof. exact airfoil_swap. Qed.
Print Assumptions C127_airfoil_swap.

Example C127_example : wf_polar ex_p /\ wf_polar ex_q /\ covers ex_p 5 /\ covers ex_q 5 /\ sorted_by_Re [ex_p] /\ sorted_by_Re [ex_q] /\
  (exists b1 b2, polar_blend ex_p ex_q (1/4) = Ok b1 /\ polar_blend ex_p ex_q (3/4) = Ok b2 /\ polar_blend b1 b2 (1/2) = polar_blend ex_p ex_q (1/2)) /\
  (exists b, polar_blend ex_p ex_q (1/2) = Ok b /\ p_alpha b = [0; 5; 10] /\ p_Re b = 2 /\ nth 1 (p_cl b) 0 = 1) /\
  (exists p q, wf_polar p /\ wf_polar q /\ forall a, ~ (covers p a /\ covers q a)).
Proof.
  destruct ex_polars_ok as (A & B & C & D & _). split; [exact A|]. split; [exact B|]. split; [exact C|]. split; [exact D|].
  split; [intros i j H; cbn in H; lia|]. split; [intros i j H; cbn in H; lia|].
  split; [|split; [exact ex_blend_ok|]].
  - exists (blend_val ex_p ex_q (1/4)), (blend_val ex_p ex_q (3/4)). pose proof (blend_eq ex_p ex_q (1/4) A B) as E1. pose proof (blend_eq ex_p ex_q (3/4) A B) as E2.
    split; [exact E1|]. split; [exact E2|]. rewrite (C127_between _ _ 5 _ _ (1/2) _ _ A B C D E1 E2). f_equal. lra.
  - exists ex_p, (mkPolar 1 [20; 30] [0; 1] [0; 0] [0; 0]). split; [exact A|]. split; [split; [discriminate|split; [apply incr2; lra|auto]]|].
    intros a [[_ H1] [H2 _]]. unfold first, final in *. cbn in *. lra.
Qed.

(** ** C128: blending airfoils in steps *)

(** Not even when all polars of both airfoils share one grid of angles: the number of polars may differ. *)
Theorem C128_airfoil_steps_refuted : ~ airfoil_steps_always.
Proof. exact s_refutes. Qed.
Print Assumptions C128_airfoil_steps_refuted.

(** It does hold for two airfoils given at the same distinct Reynolds numbers, each on one grid of its own. *)
Theorem C128_same_Reynolds : forall a1 a2 b c u w, a1 <> [] -> map p_Re a1 = map p_Re a2 -> increasing (map p_Re a1) ->
  Forall wf_polar (a1 ++ a2) -> Forall (fun p => covers p c) (a1 ++ a2) -> one_grid a1 -> one_grid a2 -> airfoil_blend a1 a2 u = Ok b ->
  airfoil_blend b a2 w = airfoil_blend a1 a2 (1 - (1 - u) * (1 - w)) /\ airfoil_blend a1 b w = airfoil_blend a1 a2 (u * w).
Proof. exact airfoil_steps. Qed.
Print Assumptions C128_same_Reynolds.

(** Two polars per airfoil, the two airfoils on different grids. *)
Example C128_example : exists a1 a2 b, length a1 = 2%nat /\ a1 <> [] /\ map p_Re a1 = map p_Re a2 /\ increasing (map p_Re a1) /\
  Forall wf_polar (a1 ++ a2) /\ Forall (fun p => covers p 5) (a1 ++ a2) /\ one_grid a1 /\ one_grid a2 /\ ~ one_grid (a1 ++ a2) /\
  airfoil_blend a1 a2 (1/2) = Ok b /\ length b = 2%nat.
Proof. exact steps_example. Qed.
