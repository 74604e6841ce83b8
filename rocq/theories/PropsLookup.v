(** Property theorems about looking up polars by Reynolds number (C131, C132). *)
From Coq Require Import Reals List Lra Lia.
From Verif Require Import Prelim Polar InterpSpec PolarSpec BlendSpec LookupSpec InterpProofs PolarProofs BlendProofs LookupProofs.
Import ListNotations.
Open Scope R_scope.

Lemma values_are af k a ys : Forall wf_polar af -> Forall2 (fun q z => value k q a z) af ys -> ys = map (fun q => ival k q a) af.
Proof.
  intros W F. induction F as [|q z af ys V F IH]; [reflexivity|]. inversion W as [|? ? Wq W']; subst. cbn [map]. f_equal; [|apply IH; exact W'].
  exact (polygon_unique (p_alpha q) (col k q) a z _ (proj1 (proj2 Wq)) (proj1 Wq) V (value_ival k q a Wq)).
Qed.

(** ** C131: linear in the Reynolds number *)

(** Polars on one grid: at every angle, the coefficient of the polar returned is the polygon through the stored coefficients at that angle, over the Reynolds numbers. *)
Theorem C131_linear : forall af r, af <> [] -> increasing (map p_Re af) -> Forall wf_polar af -> one_grid af ->
  exists p, getPolar af r = Ok p /\ p_alpha p = p_alpha (nth 0 af polar0) /\
  forall k a ys y, Forall2 (fun q z => value k q a z) af ys -> value k p a y -> polygon_value (map p_Re af) ys r y.
Proof.
  intros af r N I W G. destruct (lookup_linear af r N I W G) as (p & E & Wp & A & H). exists p. split; [exact E|]. split; [exact A|].
  intros k a ys y F V. rewrite (values_are af k a ys W F).
  rewrite (polygon_unique (p_alpha p) (col k p) a y _ (proj1 (proj2 Wp)) (proj1 Wp) V (value_ival k p a Wp)), H.
  apply interp_polygon; [exact I|rewrite !map_length; reflexivity|destruct af; [congruence|discriminate]].
Qed.
Print Assumptions C131_linear.

(** So a small change of the Reynolds number changes every coefficient little. *)
Theorem C131_lipschitz : forall af r r' p p' k a ys y y' L, af <> [] -> increasing (map p_Re af) -> Forall wf_polar af -> one_grid af ->
  Forall2 (fun q z => value k q a z) af ys -> slopes_at_most L (map p_Re af) ys -> 0 <= L ->
  getPolar af r = Ok p -> getPolar af r' = Ok p' -> value k p a y -> value k p' a y' -> Rabs (y' - y) <= L * Rabs (r' - r).
Proof.
  intros af r r' p p' k a ys y y' L N I W G F S HL E E' V V'.
  destruct (lookup_linear af r N I W G) as (p0 & E0 & Wp & _ & H). rewrite E in E0. apply ok_inj in E0. subst p0.
  destruct (lookup_linear af r' N I W G) as (p0 & E0 & Wp' & _ & H'). rewrite E' in E0. apply ok_inj in E0. subst p0.
  rewrite (polygon_unique (p_alpha p) (col k p) a y _ (proj1 (proj2 Wp)) (proj1 Wp) V (value_ival k p a Wp)), H.
  rewrite (polygon_unique (p_alpha p') (col k p') a y' _ (proj1 (proj2 Wp')) (proj1 Wp') V' (value_ival k p' a Wp')), H'.
  rewrite (values_are af k a ys W F) in S. apply interp_lipschitz; [exact I|destruct af; [congruence|discriminate]|rewrite !map_length; reflexivity|exact S|exact HL].
Qed.
Print Assumptions C131_lipschitz.

(** Three polars with lift 0, 1 and 3 at 10 degrees, at Reynolds numbers 1, 2 and 4. *)
Definition l_polar (Re cl : R) : polar := mkPolar Re [0; 10] [0; cl] [1; 1] [0; 0].
Definition l_foil : list polar := [l_polar 1 0; l_polar 2 1; l_polar 4 3].
Example C131_example : l_foil <> [] /\ increasing (map p_Re l_foil) /\ Forall wf_polar l_foil /\ one_grid l_foil /\
  Forall2 (fun q z => value CL q 10 z) l_foil [0; 1; 3] /\ slopes_at_most 1 (map p_Re l_foil) [0; 1; 3].
Proof.
  assert (WL : forall r c, wf_polar (l_polar r c)) by (intros; split; [discriminate|split; [apply incr2; lra|auto]]).
  assert (VL : forall r c, value CL (l_polar r c) 10 c).
  { intros r c. pose proof (value_ival CL (l_polar r c) 10 (WL r c)) as V. assert (Q : ival CL (l_polar r c) 10 = c) by (apply (ival_node CL (l_polar r c) 1 (WL r c)); cbn; lia). rewrite Q in V. exact V. }
  split; [discriminate|]. split; [apply increasing_cons; [apply incr2; cbn; lra|right; cbn; lra]|]. split; [repeat (apply Forall_cons; [apply WL|]); apply Forall_nil|].
  split; [intros p q Hp Hq; cbn in Hp, Hq; intuition subst; reflexivity|]. split; [repeat (apply Forall2_cons; [apply VL|]); apply Forall2_nil|].
  intros [|[|j]] Hj; cbn in Hj |- *; [rewrite Rabs_right; lra|rewrite Rabs_right; lra|lia].
Qed.
Example C131_example_use : exists p, getPolar l_foil 3 = Ok p /\ forall y, value CL p 10 y -> y = 2.
Proof.
  destruct C131_example as (A & B & C & D & F & _). destruct (C131_linear l_foil 3 A B C D) as (p & E & _ & H). exists p. split; [exact E|]. intros y V.
  destruct (H CL 10 _ y F V) as (_ & _ & Q). specialize (Q 1%nat ltac:(cbn; lia)). cbn in Q. lra.
Qed.

(** ** C132: without a common grid *)

(** Reynolds numbers 1, 2, 3, all with lift alpha / 10; the last polar starts at 5 degrees. Just above 2 the lift looked up at 0 degrees is 1/2, at 2 it is 0. *)
Theorem C132_continuous_refuted : ~ varies_continuously.
Proof. exact j_refutes. Qed.
Print Assumptions C132_continuous_refuted.

(** On one grid it is true. *)
Theorem C132_one_grid : forall af k a r p v, af <> [] -> increasing (map p_Re af) -> Forall wf_polar af -> one_grid af -> getPolar af r = Ok p -> value k p a v ->
  forall eps, 0 < eps -> exists delta, 0 < delta /\ forall r' p' v', Rabs (r' - r) < delta -> getPolar af r' = Ok p' -> value k p' a v' -> Rabs (v' - v) < eps.
Proof. exact one_grid_continuous. Qed.
Print Assumptions C132_one_grid.
