(** Property theorems about airfoil tables: C43-C49, C68, C69. *)
From Coq Require Import Reals List Bool Lra Lia Permutation.
From Verif Require Import Prelim Interp Polar InterpSpec PolarSpec InterpProofs PolarProofs.
Import ListNotations.
Open Scope R_scope.

(** C43: the blend of two usable polars has strictly increasing angles, exactly the angles of either polar
    that both cover, and one coefficient of each kind per angle. *)
Theorem C43_blend_wellformed : forall p q w, wf_polar p -> wf_polar q ->
  exists b, polar_blend p q w = Ok b /\
    increasing (p_alpha b) /\
    (forall a, In a (p_alpha b) <-> (In a (p_alpha p) \/ In a (p_alpha q)) /\ covers p a /\ covers q a) /\
    (forall k, length (col k b) = length (p_alpha b)) /\
    p_Re b = (1 - w) * p_Re p + w * p_Re q.
Proof. exact blend_wellformed. Qed.
Print Assumptions C43_blend_wellformed.

(** C44: at each angle of the blend the coefficient is (1-w) times self's plus w times other's. *)
Theorem C44_blend_weights : forall p q w b, wf_polar p -> wf_polar q -> polar_blend p q w = Ok b ->
  forall k i y1 y2, (i < length (p_alpha b))%nat ->
  value k p (nth i (p_alpha b) 0) y1 -> value k q (nth i (p_alpha b) 0) y2 ->
  nth i (col k b) 0 = (1 - w) * y1 + w * y2.
Proof. exact blend_value. Qed.
Print Assumptions C44_blend_weights.

(** C44: weight 0 gives self's values, weight 1 other's. *)
Theorem C44_blend_ends : forall p q b, wf_polar p -> wf_polar q ->
  (polar_blend p q 0 = Ok b -> p_Re b = p_Re p /\
     forall k i, (i < length (p_alpha b))%nat -> value k p (nth i (p_alpha b) 0) (nth i (col k b) 0)) /\
  (polar_blend p q 1 = Ok b -> p_Re b = p_Re q /\
     forall k i, (i < length (p_alpha b))%nat -> value k q (nth i (p_alpha b) 0) (nth i (col k b) 0)).
Proof. exact blend_ends. Qed.
Print Assumptions C44_blend_ends.

(** C44: blending a polar with itself returns it, whatever the weight. *)
Theorem C44_blend_self : forall p w, wf_polar p -> polar_blend p p w = Ok p.
Proof. exact blend_self. Qed.
Print Assumptions C44_blend_self.

(** C44: swapping the operands and complementing the weight gives the same polar. *)
Theorem C44_blend_swap : forall p q w, wf_polar p -> wf_polar q -> polar_blend q p (1 - w) = polar_blend p q w.
Proof. exact blend_swap. Qed.
Print Assumptions C44_blend_swap.

(** C44: for weights in [0, 1] each blended coefficient lies between the two it is blended from. *)
Theorem C44_blend_between : forall p q w b, wf_polar p -> wf_polar q -> 0 <= w <= 1 -> polar_blend p q w = Ok b ->
  forall k i y1 y2, (i < length (p_alpha b))%nat ->
  value k p (nth i (p_alpha b) 0) y1 -> value k q (nth i (p_alpha b) 0) y2 ->
  Rmin y1 y2 <= nth i (col k b) 0 <= Rmax y1 y2.
Proof. exact blend_between. Qed.
Print Assumptions C44_blend_between.

(** C45: the constructor keeps every polar, orders them by Reynolds number and keeps the order of polars at
    one Reynolds number; it fails only for the empty list. *)
Theorem C45_airfoil_sorted : forall l,
  (l = [] -> mk_airfoil l = Raise IndexError) /\
  (l <> [] -> exists af, mk_airfoil l = Ok af /\
     Permutation l af /\ sorted_by_Re af /\ (forall r, at_Re r af = at_Re r l)).
Proof. exact airfoil_total. Qed.
Print Assumptions C45_airfoil_sorted.

(** C45: lookup clamps at both ends; in between it blends two neighbours with different Reynolds numbers that
    enclose the requested one, with a weight in (0, 1] that reproduces it. Duplicates are allowed. *)
Theorem C45_lookup : forall af Re, af <> [] -> sorted_by_Re af ->
  (Re <= p_Re (nth 0 af polar0) -> getPolar af Re = Ok (nth 0 af polar0)) /\
  (p_Re (nth 0 af polar0) < Re -> p_Re (nth (length af - 1) af polar0) <= Re ->
     getPolar af Re = Ok (nth (length af - 1) af polar0)) /\
  (p_Re (nth 0 af polar0) < Re < p_Re (nth (length af - 1) af polar0) ->
     exists i w, (S i < length af)%nat /\ 0 < w <= 1 /\
       p_Re (nth i af polar0) < Re <= p_Re (nth (S i) af polar0) /\
       Re = (1 - w) * p_Re (nth i af polar0) + w * p_Re (nth (S i) af polar0) /\
       getPolar af Re = polar_blend (nth i af polar0) (nth (S i) af polar0) w).
Proof. exact lookup_spec. Qed.
Print Assumptions C45_lookup.

(** C45: for usable polars covering a common angle every lookup succeeds, and the polar returned sits at the
    requested Reynolds number, limited to the stored range, and still covers that angle. *)
Theorem C45_lookup_Re : forall af Re a, af <> [] -> sorted_by_Re af -> Forall wf_polar af ->
  Forall (fun p => covers p a) af ->
  exists p, getPolar af Re = Ok p /\ wf_polar p /\ covers p a /\
    p_Re p = clamp (p_Re (nth 0 af polar0)) (p_Re (nth (length af - 1) af polar0)) Re.
Proof. exact lookup_Re. Qed.
Print Assumptions C45_lookup_Re.

(** C46: with one angle grid and distinct Reynolds numbers, lookup at a stored Reynolds number returns the
    stored polar. *)
Theorem C46_lookup_exact : forall af i, sorted_by_Re af -> Forall wf_polar af ->
  (forall p q, In p af -> In q af -> p_alpha p = p_alpha q) ->
  (forall j k, (j < k < length af)%nat -> p_Re (nth j af polar0) <> p_Re (nth k af polar0)) ->
  (i < length af)%nat ->
  getPolar af (p_Re (nth i af polar0)) = Ok (nth i af polar0).
Proof. exact getPolar_stored. Qed.
Print Assumptions C46_lookup_exact.

(** C47: Airfoil.blend returns one polar per distinct Reynolds number of either airfoil, sorted, each the
    blend of the two lookups there, at the weighted mean of the two (limited) Reynolds numbers. *)
Theorem C47_airfoil_blend : forall a1 a2 w c, a1 <> [] -> a2 <> [] -> sorted_by_Re a1 -> sorted_by_Re a2 ->
  Forall wf_polar (a1 ++ a2) -> Forall (fun p => covers p c) (a1 ++ a2) ->
  exists af Rs bs, airfoil_blend a1 a2 w = Ok af /\
    increasing Rs /\ (forall r, In r Rs <-> In r (map p_Re a1) \/ In r (map p_Re a2)) /\
    Permutation bs af /\ sorted_by_Re af /\
    Forall2 (fun r b => exists p1 p2, getPolar a1 r = Ok p1 /\ getPolar a2 r = Ok p2 /\ polar_blend p1 p2 w = Ok b /\
       p_Re b = (1 - w) * clamp (p_Re (nth 0 a1 polar0)) (p_Re (lastp a1)) r
                + w * clamp (p_Re (nth 0 a2 polar0)) (p_Re (lastp a2)) r) Rs bs.
Proof. exact blend_union. Qed.
Print Assumptions C47_airfoil_blend.

(** C47: over the common Reynolds range the blended polar sits at that Reynolds number whatever the weight. *)
Theorem C47_common_range : forall a1 a2 w c r, a1 <> [] -> a2 <> [] -> sorted_by_Re a1 -> sorted_by_Re a2 ->
  Forall wf_polar (a1 ++ a2) -> Forall (fun p => covers p c) (a1 ++ a2) ->
  In r (map p_Re a1) \/ In r (map p_Re a2) ->
  p_Re (nth 0 a1 polar0) <= r <= p_Re (lastp a1) -> p_Re (nth 0 a2 polar0) <= r <= p_Re (lastp a2) ->
  exists af b, airfoil_blend a1 a2 w = Ok af /\ In b af /\ p_Re b = r.
Proof. exact blend_common_range. Qed.
Print Assumptions C47_common_range.

(** C48: all returned polars share one strictly increasing grid, the union of all angles; each is the
    interpolation of the original with its own values at its own angles; repeating changes nothing. *)
Theorem C48_common_alpha : forall af, af <> [] -> sorted_by_Re af -> Forall wf_polar af ->
  exists af' grid, interpToCommonAlpha af None = Ok af' /\
    increasing grid /\ (forall a, In a grid <-> exists p, In p af /\ In a (p_alpha p)) /\
    Forall2 (fun p q => p_Re q = p_Re p /\ p_alpha q = grid /\
       forall k, length (col k q) = length grid /\
         (forall i, (i < length grid)%nat -> value k p (nth i grid 0) (nth i (col k q) 0)) /\
         (forall i j, (i < length grid)%nat -> (j < length (p_alpha p))%nat ->
            nth i grid 0 = nth j (p_alpha p) 0 -> nth i (col k q) 0 = nth j (col k p) 0)) af af' /\
    interpToCommonAlpha af' None = Ok af'.
Proof. exact common_unified. Qed.
Print Assumptions C48_common_alpha.

(** C49: createDataGrid returns arrays of shape (angles, polars); entry (i, j) is the coefficient of polar j at
    angle i; the Reynolds numbers are those of the polars, sorted. *)
Theorem C49_data_grid : forall af, af <> [] -> sorted_by_Re af -> Forall wf_polar af ->
  exists alpha Re A B C, createDataGrid af = Ok (alpha, Re, (A, B, C)) /\
    increasing alpha /\ (forall a, In a alpha <-> exists p, In p af /\ In a (p_alpha p)) /\
    Re = map p_Re af /\ nondecreasing Re /\
    (forall M, M = A \/ M = B \/ M = C -> m_rows M = length alpha /\ m_cols M = length af) /\
    forall i j, (i < length alpha)%nat -> (j < length af)%nat ->
      value CL (nth j af polar0) (nth i alpha 0) (m_at A i j) /\
      value CD (nth j af polar0) (nth i alpha 0) (m_at B i j) /\
      value CM (nth j af polar0) (nth i alpha 0) (m_at C i j).
Proof. exact grid_ok. Qed.
Print Assumptions C49_data_grid.

(** C68 (docstring of Polar.blend: "0 returns self"): false. Weight 0 keeps only the angles both polars cover;
    for polars without a common angle the result has no data at all. *)
Theorem C68_weight_zero_refuted :
  (exists p q b, wf_polar p /\ wf_polar q /\ (exists a, covers p a /\ covers q a) /\
     polar_blend p q 0 = Ok b /\ b <> p /\ exists a, In a (p_alpha p) /\ ~ In a (p_alpha b)) /\
  (forall p q w, wf_polar p -> wf_polar q -> (forall a, ~ (covers p a /\ covers q a)) ->
     exists b, polar_blend p q w = Ok b /\ p_alpha b = [] /\ forall k, col k b = []).
Proof. exact weight_zero_refuted. Qed.
Print Assumptions C68_weight_zero_refuted.

(** C68, what holds: weight 0 returns self exactly when other covers self's range and adds no angle inside it. *)
Theorem C68_weight_zero_partial : forall p q, wf_polar p -> wf_polar q ->
  (polar_blend p q 0 = Ok p <->
   (forall a, In a (p_alpha p) -> covers q a) /\
   (forall a, In a (p_alpha q) -> covers p a -> In a (p_alpha p))).
Proof. exact weight_zero_iff. Qed.
Print Assumptions C68_weight_zero_partial.

(** C69: the Reynolds numbers of a blended airfoil need not be distinct even if those of both inputs are. *)
Theorem C69_distinct_refuted : exists a1 a2 af,
  sorted_by_Re a1 /\ sorted_by_Re a2 /\ Forall wf_polar (a1 ++ a2) /\ Forall (fun p => covers p 0) (a1 ++ a2) /\
  increasing (map p_Re a1) /\ increasing (map p_Re a2) /\
  airfoil_blend a1 a2 0 = Ok af /\ length af = 3%nat /\ forall p, In p af -> p_Re p = 1.
Proof. exact blend_distinct_refuted. Qed.
Print Assumptions C69_distinct_refuted.

(** C69, what holds: for weights strictly between 0 and 1 and airfoils whose Reynolds ranges meet in an interval,
    the blended Reynolds numbers are distinct. *)
Theorem C69_distinct_partial : forall a1 a2 w c, a1 <> [] -> a2 <> [] -> sorted_by_Re a1 -> sorted_by_Re a2 ->
  Forall wf_polar (a1 ++ a2) -> Forall (fun p => covers p c) (a1 ++ a2) -> 0 < w < 1 ->
  p_Re (nth 0 a1 polar0) <= p_Re (lastp a2) -> p_Re (nth 0 a2 polar0) <= p_Re (lastp a1) ->
  exists af, airfoil_blend a1 a2 w = Ok af /\ increasing (map p_Re af).
Proof. exact blend_distinct. Qed.
Print Assumptions C69_distinct_partial.

(** ** Concrete instances of the hypotheses *)
Example ex_polars : wf_polar ex_p /\ wf_polar ex_q /\ covers ex_p 5 /\ covers ex_q 5 /\ sorted_by_Re [ex_p; ex_q].
Proof. exact ex_polars_ok. Qed.

Example ex_blend : exists b, polar_blend ex_p ex_q (1/2) = Ok b /\ p_alpha b = [0; 5; 10] /\ p_Re b = 2 /\
  nth 1 (p_cl b) 0 = 1.
Proof. exact ex_blend_ok. Qed.

Example ex_lookup : getPolar [ex_p; ex_r; ex_s] 2 = Ok ex_r.
Proof.
  apply (C46_lookup_exact [ex_p; ex_r; ex_s] 1).
  - apply increasing_nondecreasing. cbn [map p_Re ex_p ex_r ex_s]. incr_lit.
  - repeat constructor; try discriminate; cbn [ex_p ex_r ex_s p_alpha]; incr_lit.
  - intros p q [<-|[<-|[<-|[]]]] [<-|[<-|[<-|[]]]]; reflexivity.
  - intros [|[|j]] [|[|[|k]]] H; cbn [length] in H; try lia; cbn; lra.
  - cbn. lia.
Qed.

Example ex_common : exists af b, airfoil_blend [ex_p; ex_s] [ex_p; ex_r; ex_q] (7/10) = Ok af /\ In b af /\ p_Re b = 2.
Proof.
  assert (W : Forall wf_polar ([ex_p; ex_s] ++ [ex_p; ex_r; ex_q])).
  { repeat constructor; try discriminate; cbn [ex_p ex_q ex_r ex_s p_alpha]; incr_lit. }
  apply (C47_common_range _ _ _ 5); try discriminate; try exact W.
  - apply increasing_nondecreasing. cbn [map p_Re ex_p ex_s]. incr_lit.
  - apply increasing_nondecreasing. cbn [map p_Re ex_p ex_r ex_q]. incr_lit.
  - repeat constructor; unfold first, final; cbn; lra.
  - right; right; left; reflexivity.
  - cbn. lra.
  - cbn. lra.
Qed.

Example ex_grid : exists alpha Re A B C, createDataGrid [ex_p; ex_q] = Ok (alpha, Re, (A, B, C)) /\
  In (-5) alpha /\ In 5 alpha /\ Re = [1; 3].
Proof.
  destruct ex_polars as (Wp & Wq & _ & _ & S).
  destruct (C49_data_grid [ex_p; ex_q]) as (alpha & Re & A & B & C & E & _ & M & R & _);
    [discriminate|exact S|repeat (constructor; auto)|].
  exists alpha, Re, A, B, C. split; [exact E|]. split; [|split; [|exact R]]; apply M; exists ex_q; simpl; auto.
Qed.
