(** Model of the airfoil class used by the rotor code, ccblade/ccblade.py:39-363 (CCAirfoil): construction,
    evaluate, derivatives, max_eff, awayfromstall and eval_unsteady.

    Not modelled: the coordinates and the name stored with the airfoil, and af_flap_coords (365-454), which runs an
    external program. scipy's RectBivariateSpline and bisplev are arguments of the model. *)
From Coq Require Import Reals List Bool ZArith Lra Lia.
From Verif Require Import Prelim Num Interp Polar PolarExt AeroDyn.
Import ListNotations.
Open Scope R_scope.

(** A fitted RectBivariateSpline: .ev (alpha, Re), and bisplev on its tck for dx=1, dy=0 and for dx=0, dy=1. The
    last may raise (the code expects that, ccblade.py:221-226). *)
Record spline := mkSpline { sp_ev : R -> R -> R; sp_dalpha : R -> R -> R; sp_dRe : R -> R -> res R }.

(** The attributes alpha (radians), one_Re, use_cm, cl_spline, cd_spline and cm_spline (absent without cm data). *)
Record ccairfoil := mkCC {
  cc_alpha : list R; cc_one_Re : bool; cc_use_cm : bool;
  cc_cl : spline; cc_cd : spline; cc_cm : option spline }.

Section Build.
(** RectBivariateSpline (x, y, z, kx, ky, s): raises on grids it does not accept. *)
Variable rbs : list R -> list R -> mat -> nat -> nat -> R -> res spline.

(** numpy.c_[M, M]. A one-dimensional array counts as a single column. *)
Definition twice (M : mat) : mat :=
  mkMat (m_rows M) (m_cols M + m_cols M)
    (fun i j => if Nat.ltb j (m_cols M) then m_at M i j else m_at M i (j - m_cols M)).

(** CCAirfoil.__init__, ccblade.py:43-94; alpha in degrees. len(cm) is the number of rows. *)
Definition cc_init (alpha Re : list R) (cl cd cm : mat) : res ccairfoil :=
  let alpha := map radians alpha in
  let use_cm := Nat.ltb 0 (m_rows cm) in
  let one_Re := Nat.ltb (length Re) 2 in
  let Re := if one_Re then [10; 1000000000000000] else Re in
  let cl := if one_Re then twice cl else cl in
  let cd := if one_Re then twice cd else cd in
  let cm := if one_Re then (if use_cm then twice cm else cm) else cm in
  if Nat.ltb (length alpha) 2 then Raise ValueError
  else
    let kx := Nat.min (length alpha - 1) 3 in
    let ky := Nat.min (length Re - 1) 3 in
    do scl <- rbs alpha Re cl kx ky (1 / 10);
    do scd <- rbs alpha Re cd kx ky (1 / 1000);
    if use_cm
    then do scm <- rbs alpha Re cm kx ky (1 / 10000); Ok (mkCC alpha one_Re use_cm scl scd (Some scm))
    else Ok (mkCC alpha one_Re use_cm scl scd None).

(** CCAirfoil.initFromAerodynFile, ccblade.py:109-111, after Airfoil.initFromAerodynFile has given the airfoil. *)
Definition cc_from_airfoil (af : airfoil) : res ccairfoil :=
  do g <- createDataGrid af;
  cc_init (fst (fst g)) (snd (fst g)) (fst (fst (snd g))) (snd (fst (snd g))) (snd (snd g)).

(** CCAirfoil.initFromAerodynFile, ccblade.py:96-111; None when the reading needs more than fuel steps. *)
Definition cc_initFromAerodynFile (to_float : text -> option R) (to_int : text -> option Z) (fuel : nat) (file : text)
    : option (res ccairfoil) :=
  option_map (fun r => do af <- r; cc_from_airfoil af) (initFromAerodynFile to_float to_int fuel file).
End Build.

(** CCAirfoil.evaluate, ccblade.py:177-206: cl, cd, and cm when it is available and asked for. *)
Definition cc_evaluate (af : ccairfoil) (alpha Re : R) (return_cm : bool) : res (R * R * option R) :=
  let cl := sp_ev (cc_cl af) alpha Re in
  let cd := sp_ev (cc_cd af) alpha Re in
  if cc_use_cm af && return_cm
  then match cc_cm af with Some s => Ok (cl, cd, Some (sp_ev s alpha Re)) | None => Raise AttributeError end
  else Ok (cl, cd, None).

(** CCAirfoil.derivatives, ccblade.py:208-227: dcl_dalpha, dcl_dRe, dcd_dalpha, dcd_dRe. An exception in either
    Reynolds derivative zeroes both. *)
Definition cc_derivatives (af : ccairfoil) (alpha Re : R) : R * R * R * R :=
  let dcl := sp_dalpha (cc_cl af) alpha Re in
  let dcd := sp_dalpha (cc_cd af) alpha Re in
  let dre := if cc_one_Re af then (0, 0)
    else match (do a <- sp_dRe (cc_cl af) alpha Re; do b <- sp_dRe (cc_cd af) alpha Re; Ok (a, b)) with
         | Ok p => p | Raise _ => (0, 0) end in
  (dcl, fst dre, dcd, snd dre).

(** * max_eff and awayfromstall *)

(** numpy.argmax of doubles: the first NaN if there is one, else the first largest entry. *)
Fixpoint argmax_fl_from (l : list fl) (i best : nat) (v : fl) : nat :=
  match l with
  | [] => best
  | x :: l' =>
      if fisnan v then best
      else if negb (fle x v) then argmax_fl_from l' (S i) i x else argmax_fl_from l' (S i) best v
  end.
Definition argmax_fl (l : list fl) : res nat :=
  match l with [] => Raise ValueError | x :: l' => Ok (argmax_fl_from l' 1 0 x) end.

(** numpy.argmin (abs (l - x)). *)
Definition nearest_to (l : list R) (x : R) : res nat := argmin (map (fun a => Rabs (a - x)) l).

(** l[lo:hi] for non-negative bounds. *)
Definition slice (l : list R) (lo hi : nat) : list R := skipn lo (firstn hi l).

(** Whether alpha[i_start:i_end] is empty, ccblade.py:119-124 and 152-157. *)
Definition cylinder (alpha : list R) : res bool :=
  do i_start <- nearest_to alpha (radians (-20));
  do i_end <- nearest_to alpha (radians 40);
  Ok (Nat.eqb (length (slice alpha i_start i_end)) 0).

(** numpy.deg2rad (numpy.linspace (-20, 40, num=201)). *)
Definition scan : list R := map radians (linspace (-20) 40 201).

(** CCAirfoil.max_eff, ccblade.py:113-144: Emax, alpha_Emax, cl_Emax, cd_Emax. The coefficients are numpy scalars,
    so that a division by zero gives an infinity or a NaN; a zero drag counts as +0. *)
Definition max_eff (af : ccairfoil) (Re : R) : res (fl * R * R * R) :=
  do cyl <- cylinder (cc_alpha af);
  if (cyl : bool) then
    let cl := sp_ev (cc_cl af) 0 Re in
    let cd := sp_ev (cc_cd af) 0 Re in
    Ok (fdiv (Fin cl) (Fin cd), 0, cl, cd)
  else
    let cl := map (fun a => sp_ev (cc_cl af) a Re) scan in
    let cd := map (fun a => sp_ev (cc_cd af) a Re) scan in
    let Eff := map2 (fun c d => fdiv (Fin c) (Fin d)) cl cd in
    do i <- argmax_fl Eff;
    Ok (nth i Eff NaN, nth i scan 0, nth i cl 0, nth i cd 0).

(** CCAirfoil.awayfromstall, ccblade.py:146-175: Eff_op, alpha_op, cl_op, cd_op. margin in degrees. *)
Definition awayfromstall (af : ccairfoil) (Re margin : R) : res (fl * R * R * R) :=
  do cyl <- cylinder (cc_alpha af);
  do alpha_op <- (if (cyl : bool) then Ok 0
                  else do i <- argmax_fl (map (fun a => Fin (sp_ev (cc_cl af) a Re)) scan);
                       Ok (nth i scan 0 - radians margin));
  let cl := sp_ev (cc_cl af) alpha_op Re in
  let cd := sp_ev (cc_cd af) alpha_op Re in
  Ok (fdiv (Fin cl) (Fin cd), alpha_op, cl, cd).

(** * eval_unsteady *)

(** l[i] for a non-negative index. *)
Definition at_ (l : list R) (i : nat) : res R := match nth_error l i with Some x => Ok x | None => Raise IndexError end.

(** numpy.gradient (f): central differences inside, one-sided ones at the ends, unit spacing. *)
Definition gradient1 (f : list R) : res (list R) :=
  if Nat.ltb (length f) 2 then Raise ValueError
  else Ok (map (fun i =>
         if Nat.eqb i 0 then nth 1 f 0 - nth 0 f 0
         else if Nat.eqb i (length f - 1) then nth i f 0 - nth (i - 1) f 0
         else (nth (i + 1) f 0 - nth (i - 1) f 0) / 2) (seq 0 (length f))).

(** numpy.gradient (f, x) for x of the same length without repetitions: second order inside (non-uniform spacing),
    one-sided at the ends. With fewer than two points numpy indexes the empty array of spacings. *)
Definition gradient2 (f x : list R) : res (list R) :=
  if Nat.ltb (length f) 2 then Raise IndexError
  else Ok (map (fun i =>
         if Nat.eqb i 0 then (nth 1 f 0 - nth 0 f 0) / (nth 1 x 0 - nth 0 x 0)
         else if Nat.eqb i (length f - 1)
         then (nth i f 0 - nth (i - 1) f 0) / (nth i x 0 - nth (i - 1) x 0)
         else
           let h1 := nth i x 0 - nth (i - 1) x 0 in
           let h2 := nth (i + 1) x 0 - nth i x 0 in
           - h2 / (h1 * (h1 + h2)) * nth (i - 1) f 0 + (h2 - h1) / (h1 * h2) * nth i f 0
           + h1 / (h2 * (h1 + h2)) * nth (i + 1) f 0) (seq 0 (length f))).

(** max (numpy.abs (numpy.gradient (f))) > tol. *)
Definition varies (tol : R) (f : list R) : res bool :=
  do g <- gradient1 f;
  do m <- amax (map Rabs g);
  Ok (rltb tol m).

(** numpy.interp (t, [x0, x1], [y0, y1]), with numpy's order of tests. *)
Definition interp2 (x0 x1 y0 y1 t : R) : R :=
  if rltb x1 t then y1 else if rltb t x0 then y0 else if rltb t x1 then seg x0 y0 x1 y1 t else y1.

(** find_breakpoint, ccblade.py:268-281: the loop over zip (lin_fit, y[idx_low:idx_high]), and the function. *)
Definition deviation (multi yi fit : R) : R := if reqb multi 0 then Rabs (yi - fit) else multi * (yi - fit).
Fixpoint break_loop (multi : R) (fits ys : list R) (i idx_break : nat) (lin_diff : R) : nat :=
  match fits, ys with
  | fit :: fits', yi :: ys' =>
      let d := deviation multi yi fit in
      if rltb lin_diff d then break_loop multi fits' ys' (S i) i d
      else break_loop multi fits' ys' (S i) idx_break lin_diff
  | _, _ => idx_break
  end.
Definition find_breakpoint (x y : list R) (lo hi : nat) (multi : R) : res nat :=
  do xl <- at_ x lo; do xh <- at_ x hi; do yl <- at_ y lo; do yh <- at_ y hi;
  let lin_fit := map (interp2 xl xh yl yh) (slice x lo hi) in
  Ok (break_loop multi lin_fit (slice y lo hi) 0 0 0 + lo)%nat.

(** The positions i with np.r_[True, c[1:] < c[:-1]][i] and np.r_[c[:-1] < c[1:], True][i], ccblade.py:291-297. For an
    empty c both np.r_ arrays have the single entry True. *)
Definition local_min (c : list R) : list nat :=
  filter (fun i => (Nat.eqb i 0 || rltb (nth i c 0) (nth (i - 1) c 0))
                   && (Nat.leb (length c - 1) i || rltb (nth i c 0) (nth (i + 1) c 0)))
    (seq 0 (Nat.max 1 (length c))).

(** idx_cm_min[-1] with idx_cm_min = local minima of cm[lo:hi] + lo. *)
Definition last_local_min (cm : list R) (lo hi : nat) : res nat :=
  match rev (local_min (slice cm lo hi)) with
  | [] => Raise IndexError
  | i :: _ => Ok (i + lo)%nat
  end.

(** The computed entries of self.unsteady; the remaining ones are the constants 0, 1 and "Default". *)
Record unsteady := mkUnsteady {
  us_alpha0 : R; us_Cd0 : R; us_Cm0 : R; us_Cn1 : R; us_Cn2 : R; us_Cnalpha : R; us_alpha1 : R; us_alpha2 : R;
  us_Alpha : list R; us_Cl : list R; us_Cd : list R; us_Cm : list R }.

Section Unsteady.
(** numpy.interp on a table that need not be sorted. *)
Variable raw_interp : R -> list R -> list R -> R.
Definition interp0 (xp fp : list R) : res R := match xp with [] => Raise ValueError | _ => Ok (raw_interp 0 xp fp) end.

(** CCAirfoil.eval_unsteady, ccblade.py:229-363. alpha in degrees. Tables of different lengths are outside the model
    (given as ValueError). *)
Definition eval_unsteady (alpha cl cd cm : list R) : res unsteady :=
  if negb (Nat.eqb (length cl) (length alpha) && Nat.eqb (length cd) (length alpha) && Nat.eqb (length cm) (length alpha))
  then Raise ValueError
  else
  let alpha_rad := map radians alpha in
  let cn := map2 Rplus (map2 (fun c a => c * cos a) cl alpha_rad) (map2 (fun c a => c * sin a) cd alpha_rad) in
  do idx_low <- nearest_to alpha (-30);
  do idx_high <- nearest_to alpha 30;
  do lift <- varies 0 cl;
  do z <- (if (lift : bool) then
      let xp := slice cl idx_low idx_high in
      do a0 <- interp0 xp (slice alpha idx_low idx_high);
      do d0 <- interp0 xp (slice cd idx_low idx_high);
      do m0 <- interp0 xp (slice cm idx_low idx_high);
      Ok (a0, d0, m0)
    else
      do i <- nearest_to alpha 0;
      do d0 <- at_ cd i;
      Ok (0, d0, 0));
  let alpha0 := fst (fst z) in
  do idx_alpha0 <- nearest_to alpha alpha0;
  do moment <- varies (1 / 10000000000) cm;
  if (moment : bool) then
    (* Cn1 *)
    do a_0 <- at_ alpha idx_alpha0;
    do idx_high <- nearest_to alpha (a_0 + 35);
    do idx_high <- last_local_min cm idx_low idx_high;
    do idx_Cn1 <- find_breakpoint alpha cm idx_alpha0 idx_high 1;
    do Cn1 <- at_ cn idx_Cn1;
    (* Cn2 *)
    do a_1 <- at_ alpha idx_Cn1;
    do idx_low <- nearest_to alpha ((a_0 + a_1) / 2 - 30);
    do idx_high <- last_local_min cm idx_low idx_high;
    do idx_Cn2 <- find_breakpoint alpha cm idx_low idx_alpha0 0;
    do Cn2 <- at_ cn idx_Cn2;
    (* C_nalpha *)
    do slopes <- gradient2 (slice cn idx_alpha0 idx_Cn1) (slice alpha_rad idx_alpha0 idx_Cn1);
    do C_nalpha <- amax slopes;
    (* alpha1, alpha2 *)
    do idx_low <- nearest_to alpha 0;
    do idx_alpha1 <- find_breakpoint alpha cd idx_low idx_Cn1 (-1);
    do alpha1 <- at_ alpha idx_alpha1;
    Ok (mkUnsteady alpha0 (snd (fst z)) (snd z) Cn1 Cn2 C_nalpha alpha1 (-1 * alpha1) alpha cl cd cm)
  else
    do i <- nearest_to alpha 0;
    Ok (mkUnsteady alpha0 (snd (fst z)) (snd z) 0 0 0 0 (-1 * 0) alpha cl cd cm).
End Unsteady.
