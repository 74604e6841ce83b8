# Formal model of CCBlade: design

Prover: Rocq / Coq 8.16.1. Sources: `rocq/theories/`. The code under study is
`/repo` (WISDEM/CCBlade), read as text; line numbers in comments refer to it.

## 1. Number model

* **Exact arithmetic.** Python floats / Fortran `real(dp)` are modelled by exact
  real numbers (`R` of the Coq standard library). Rounding, overflow, underflow
  are *not* modelled. Every theorem is about the code run with exact arithmetic.
* **Special values.** Where a property depends on NaN/Inf/signed zero (root
  bracketing, failed-solve fallback) the same code is interpreted in a second
  carrier, `fl` = finite reals + negative zero + `+inf` + `-inf` + `NaN`, with
  the IEEE-754 rules for special values. The BEM kernel is written *once*,
  polymorphically over a record of arithmetic operations (`Arith`), and
  instantiated at `R` and at `fl`. A transfer theorem shows both agree when the
  guards (non-zero divisors, `sqrt`/`acos` domains) hold. That way no theorem leans
  on Coq's totalised `x/0`.
* `pi` literals are the real number `PI`. The bracket end `np.pi/2` is a
  half of a parameter `npi` (numpy's pi), with premises such as `3 < npi < PI`
  where the proof needs `cos(npi/2) > 0` (the double nearest to pi is below pi).
  Azimuth angles (`np.linspace(0, 2*np.pi, ..)`) use the exact `PI`.
* **External routines are parameters, never axioms**: `brentq`, the bivariate
  splines behind `CCAirfoil.evaluate`, `float` formatting/parsing, `polyfit`
  (given by its closed form where needed). They appear as function arguments,
  and what is assumed of them appears as a premise of the theorem.
* Python exceptions are values (`res A := Ok a | Raise e`).

## 2. Modelled code

| model file | code |
|---|---|
| `Num.v` | arithmetic interface, `R` and IEEE-special-value instances, exceptions |
| `CSystem.v` | `ccblade/csystem.py`, `DirectionVector` class, with derivative dictionaries |
| `CSystemArray.v` | `csystem.py`: `fromArray`, `toArray`, components as numpy arrays of dimension 0 or 1 |
| `Bem.v` | `bem.f90` primal routines: `inductionFactors`, `relativeWind`, `defineCurvature`, `windComponents`, `thrustTorque` |
| `Interp.v` | `numpy.interp` as used by the code |
| `BemDiff.v` | `bem.f90` Tapenade routines `*_DV`, `*_BV`, `*_DV2` |
| `Blade.v` | `CCBlade` class: constructor, section loads, solver bracketing, `distributedAeroLoads`, `evaluate` (without derivatives; carrier `fl` and `R`) |
| `ArrayWind.v` | `distributedAeroLoads` called with an array of wind speeds; the conversion by the generated wrapper is a parameter |
| `EvalArrays.v` | `evaluate` called with three arrays whose lengths may differ (without coefficients) |
| `BladeDiff.v` | the `derivatives=True` part of `CCBlade`: `__residualDerivatives`, `__loads`, `__windComponents`, `distributedAeroLoads`, `__thrustTorqueDeriv`, `evaluate` (carrier `R`) |
| `Flap.v` | `CCAirfoil.af_flap_coords` (ccblade.py:365-455): files written, read and deleted, the XFOIL script |
| `BladeDiffFl.v` | the same from the divisions of `__loads` on (ccblade.py:798-799, 1036-1136, 1281-1424, 1490-1734), any carrier: `fl` has the IEEE special values |
| `Polar.v` | `airfoilprep.py`: `Polar` (constructor, `blend`), `Airfoil` (constructor, `getPolar`, `blend`, `interpToCommonAlpha`, `createDataGrid`) |
| `PolarExt.v` | `airfoilprep.py`: `correction3D`, `extrapolate` with `__Viterna`, `__CMCoeff`, `__getCM` |
| `AeroDyn.v` | `airfoilprep.py`: `initFromAerodynFile`, `writeToAerodynFile`, `unsteadyparam` |
| `Component.v` | OpenMDAO components: geometry, loads, twist, evaluate |
| `ComponentSetup.v` | the `declare_partials` calls of `setup` and the keys of J written by `compute_partials` (geometry, loads, evaluate) |
| `CCAirfoil.v` | `CCAirfoil`: constructor, `initFromAerodynFile`, `evaluate`, `derivatives`, `max_eff`, `awayfromstall`, `eval_unsteady` |

Limits of `BemDiff.v`: each direction of a Tapenade routine is modelled
separately (a loop over `nd` acts on each direction independently). In
`DEFINECURVATURE_BV` the work arrays `tempb1`.. are declared with `n` columns
but assigned sections of `n-2` values (bem.f90:1130, 1182), a shape mismatch;
the model takes the `n-2` values.

Limits of `BladeDiffFl.v`: the results of the Fortran routines, of the airfoil and of
the residual's derivatives are finite numbers, and a zero among them is +0.

Limits of `Component.v`: OpenMDAO is not modelled; a component is the functions
`compute` and `compute_partials` of its inputs (for CCBladeLoads with the state
left by `compute`, and a history of calls). `CCBladeTwist`: the two Pchip
interpolations and `eval_unsteady` are function arguments; the interpolations of
cl, cd, lift and drag to the optimisation grid are `None` if a value is not finite;
`nan_to_num` maps NaN only; design coefficients that are not finite numbers are an exception. In
`ComponentSetup.v` the meaning of overlapping and missing declarations is the
framework's documented one: the last match counts, no match means independent.

Limits of `CCAirfoil.v`: `RectBivariateSpline` and `bisplev` are function
arguments; so is `numpy.interp` on the unsorted lift table of `eval_unsteady`. The
stored coordinates and name, and the constant entries of the unsteady dictionary
(0, 1, "Default"), are left out. Polar tables of different lengths are outside the
model of `eval_unsteady`, and its theorems ask for strictly increasing angles.
What C78, C99 and C100 suppose of the spline routine is written in `CCFitSpec.v`: its
documented acceptance and smoothing conditions, constancy across equal columns, and
(C100 only) that FITPACK tries the least-squares polynomial before adding knots.

Limits of `Flap.v` (`af_flap_coords`): the directory is a map from names to texts;
the program that is run, `str`, `numpy.savetxt` and `numpy.loadtxt` are function
arguments. XFOIL's menus in `FlapSpec.v` are written from its manual, for C118 only.

Not modelled: plotting, XFOIL itself, OpenMDAO's own machinery, f2py argument marshalling, numpy
dtypes (integer arrays), the spline evaluation itself, `brentq` itself.

Arrays used only by index in Fortran are functions `nat -> R` with an explicit
length; python lists/arrays whose length matters are Coq lists.

## 3. File discipline

`X.v` model, `XSpec.v` small independent specifications, `XProofs.v` lemmas,
`Props*.v` contain nothing but property theorems (most closed by `exact`), the
`Example`s showing their hypotheses are met, and `Print Assumptions`.

| Props file | model | specification | proofs, witnesses |
|---|---|---|---|
| `PropsCSystem` | `CSystem` | `CSystemSpec` | `CSystemProofs`, `CSystemDeriv` |
| `PropsArray` | `CSystemArray` | `CSystemArrayProofs` | `CSystemArrayProofs` |
| `PropsBemGeom`, `PropsInd` | `Bem`, `Num` | `BemGeomSpec`, `IndSpec` | `BemGeomProofs`, `IndProofs`, `IndSmooth`, `FlProofs`, `Cont` |
| `PropsStation` | `Blade` | `IndSpec`, `BladeSpec` | `FlProofs`, `StationProofs`, `StationLoads`, `StationExist`, `StationWitness` |
| `PropsBlade` | `Blade`, `Interp` | `BladeSpec`, `InterpSpec` | `BladeProofs`, `SectorProofs`, `ConstructProofs`, `InverseProofs`, `InterpProofs`, `SectorWitness` |
| `PropsDiff` | `BemDiff` | `DiffSpec` | `DeriveLib`, `IndDvProofs`, `CurvDvProofs`, `LinProofs`, `AdjointProofs` |
| `PropsBladeDiff` | `BladeDiff` | `BladeDiffSpec` | `StationDvProofs`, `BladeDvProofs`, `EvalDvProofs`, `BladeDvExample`, `BladeDvRefute` |
| `PropsFlDv` | `BladeDiffFl` | `FlDvSpec` | `FlDvProofs`, `FlDvRates` |
| `PropsPolar`, `PropsPolarExt` | `Polar`, `PolarExt` | `PolarSpec` | `PolarProofs`, `PolarExtProofs`, `PolarCmProofs`, `PolarExtFacts` |
| `PropsTwistOut` | (`Component`) | `TwistOutSpec` | `TwistOutProofs` |
| `PropsLength` | (`Blade`) | `LengthSpec` | `LengthProofs` |
| `PropsPolarBad` | (`Polar`, `PolarExt`) | `PolarBadSpec` | `PolarBadProofs` |
| `PropsMoment` | (`PolarExt`) | `MomentSpec` | `MomentProofs` |
| `PropsAeroDyn` | `AeroDyn` | `AeroDynSpec` | `AeroDynProofs`, `UnsteadyProofs`, `AeroDynExample` |
| `PropsWrite` | (`AeroDyn`) | `WriteSpec` | `WriteProofs` |
| `PropsComponent` | `Component` | `ComponentSpec` | `ComponentProofs`, `ComponentRho`, `ExactRotor`, `ComponentWitness`, `TwistProofs`, `TwistWitness` |
| `PropsCCAirfoil` | `CCAirfoil` | `CCAirfoilSpec` | `CCAirfoilProofs`, `CCUnsteadyProofs`, `CCAirfoilExample` |
| `PropsSetup` | `ComponentSetup` | `SetupSpec` | `SetupProofs` |
| `PropsFlap` | `Flap` | `FlapSpec` | `FlapProofs` |
| `PropsStraight` | (`Component`) | `StraightProofs` (definitions at its head) | `StraightProofs` |
| `PropsRe` | (`Blade`) | `ReSpec` | `ReProofs` |
| `PropsViterna` | (`PolarExt`) | `ViternaSpec` | `ViternaProofs` |
| `PropsMirror` | (`Bem`, `Blade`) | `MirrorSpec` | `MirrorProofs`, `MirrorWitness` |
| `PropsBlend` | (`Polar`) | `BlendSpec` | `BlendProofs` |
| `PropsCorr` | (`PolarExt`) | `CorrSpec` | `CorrProofs` |
| `PropsLookup` | (`Polar`) | `LookupSpec` | `LookupProofs` |
| `PropsWindBound` | (`Bem`, `Blade`) | `WindBoundSpec` | `WindBoundProofs` |
| `PropsAttached` | (`Bem`, `Blade`) | `AttachedSpec` | `AttachedLoss`, `AttachedProofs`, `AttachedWitness` |
| `PropsLossRaise` | (`Bem`) | `LossRaiseSpec` | `LossRaiseProofs` |
| `PropsDrag` | `Bem`, `Blade` | `DragSpec` | `DragStation`, `DragRotor`, `DragWitness` |
| `PropsPitchDv`, `PropsEuler`, `PropsHub` | (`BladeDiff`, `BladeDiffFl`, `Blade`) | `EulerSpec`, `HubSpec` | `PitchDv`, `EulerProofs`, `HubProofs` |
| `PropsParked` | (`Blade`) | `ParkedSpec` | `ParkedProofs`, `ParkedWitness` |
| `PropsPlacement` | (`Bem`, `Blade`) | `PlacementSpec` | `PlacementProofs`, `PlacementWitness` |
| `PropsSimilarity` | (`Blade`) | `SimilaritySpec` | `SimilarityProofs`, `SymmetryProofs`, `SymmetryWitness` |

## 4. Properties: what is modelled and how each is proved

| id | plan |
|---|---|
| C01 | model all conversions; algebra from sin^2+cos^2=1; induction over chains |
| C02 | ditto; invariant "dot and cross preserved" by induction over chains |
| C03 | expected false (profile swap is a reflection): witness theorem plus exact transformation law |
| C04 | dictionaries modelled as key -> value; induction over the chain with invariant "entry = partial derivative" (Coquelicot `is_derive`) |
| C05 | expected false: witness |
| C06 | algebra, `is_derive` |
| C07 | unfold both models, trigonometric ring identities; any n |
| C08 | specialise C07; loads at a station are a function of Vx, Vy |
| C09 | prove facts about atan2 on positive multiples of (sin, cos) |
| C10 | induction over stations, triangle inequality |
| C11 | Coquelicot `RInt` of a piecewise linear function, induction over stations |
| C12 | sums |
| C13 | monotonicity of exp, acos; guards as `fl` finiteness theorem |
| C14, C15 | algebra with square root; key identity 1-a = 1/(sqrt g2 + 5/3 - F) |
| C16 | one-sided derivatives glued into `is_derive` at the switch |
| C17 | identity of C15, bound |
| C18 | algebra |
| C19 | case analysis on the flags |
| C20 | case analysis over the modelled control flow, `brentq` contract as premise |
| C21 | expected false with default options: in `fl` the residual is NaN for every negative angle; theorem that bracket 2 is never chosen |
| C22 | `fl` evaluation at angle 0; holds with wake rotation, expected false without |
| C23 | continuity + intermediate value theorem |
| C24, C25 | unfold |
| C26 | state machine of the object; induction over call histories |
| C27 | algebra |
| C28, C29 | sums over sectors; C29 expected false (single-sector shortcut), with the vanishing of the average for >= 2 sectors proved |
| C30, C31, C32 | list model of constructor; C32 expected false |
| C33-C36 | `is_derive` along arbitrary curves, routine by routine; adjoint by summation |
| C37 | `is_derive` chain rule in two variables; implicit function by a sign change between two lines (TrackProofs) |
| C38 | composition of C33, C34 |
| C39, C40, C41 | expected false: witnesses; positive variants under restrictions |
| C42 | algebra, fold over stations; the zero of the inverse residual is one of the forward residual with the stored twist |
| C43-C49, C61 | list inductions over model of `np.interp`, `union1d`, sort, `searchsorted` |
| C50-C52 | list model of `extrapolate`; C51 and moment part of C52 expected false in corner cases |
| C53 | list model with `polyfit` closed form |
| C54 | line-level parser, structural recursion; round trip with a reference printer |
| C55 | expected false: writer emits no newline |
| C56-C60 | unfold/derivatives (C59, C60 reduce to C64, C65); C60 expected false for density |
| C62, C63 | list scans; C63 expected false |
| C64 | permutation lemmas on row indices; C37_angle_moves for the motion of the zero |
| C65 | quotient rule |
| C66, C67 | unfold; documented axes and total cone angle |
| C68, C69 | expected false: witness (extra rows at weight 0; duplicate Reynolds numbers), with the case that holds |
| C70, C71 | unfold; expected false (radians, mask length) with what holds |
| C72, C73 | expected false: a jump has no derivative; witness on a rotor solved in closed form (`ExactRotor.v`) |
| C74-C77 | expected false: witnesses on two-station rotors; general statement of what is computed instead |
| C78, C79 | case analysis over the constructor and the exception handler; spline behaviour as premise |
| C80 | relational description of the searches (closest row, last strict minimum, break point), proved by induction over the loops |
| C81 | componentwise; linearity by induction over chains |
| C82 | key tables by computation; outputs rewritten to section results of the given design; density by `station_rho` |
| C83 | every arithmetic step on a scaled value is scaled, so the residual is the same function; induction over stations, azimuths, conditions |
| C84 | running totals as sums; the two in-plane components are the azimuth-to-hub conversion |
| C85 | only theta + pitch enters a station |
| C86 | sine and cosine change sign in half a turn; sum over an even number of sectors reindexed |
| C87 | the non-rotating branch evaluated on representable values |
| C88 | refuted: zero yaw and tilt; azimuthal mean of zero loads |
| C89 | x, y, z of the curvature routine are the places; cone and path length are functions of them |
| C90 | refuted: section with constant loading k, so a = k/(1+k) for any inflow angle; distance root - first station |
| C91 | `np.c_` as columns side by side, always two-dimensional; refuted in both directions, exact law proved |
| C92 | the table of `getCM` at multiples of ten; arm law (x - 1/4) sin a cos ah = (xh - 1/4) sin ah cos a; `np.interp` located between two neighbouring tens |
| C93 | unfold `twist_finish`; resampled outputs by the polygon lemma over the span fraction |
| C94 | case analysis of the two length checks; the shape guard of the first Fortran call; the first missing list element |
| C95 | each use of `numpy.interp`, `min`, `max` either succeeds with fitting columns or raises |
| C96 | the concatenated writes against the list of lines; reading back by C54; sorted airfoils are determined by their polars at each Reynolds number |
| C97, C98 | refuted: NaN spreads through every later step; bridge to the exact dictionaries step by step where no divisor is zero |
| C99 | one term of a sum of squares is at most the sum; the file by C54 and the data grid |
| C100 | refuted: the smoothing condition already admits the best cubic of a drag bucket, computed by orthogonality |
| C101 | each annulus takes at most 4a(1-a)^2 <= 16/27 of its wind power, from the two momentum equations at the zero; trapezoid of an increasing weight below the area |
| C102 | refuted: constant lift, no drag, zero of the residual at 135 degrees, unique in the bracket that is tried; power exact |
| C103 | proved: flat rotor, inflow angles of loaded stations in (0, 90] degrees; the thrust bound with useCd = true (with useCd = false the induction does not see the drag) |
| C104 | proved: the list of thin stations is empty, so its first element does not exist; both switches together reach the raise before any design |
| C105 | proved: every lookup by station index succeeds, the solver only raises ValueError, which is caught, and a turning station always leaves a load (the NaN branch resets it) |
| C106 | proved: blade count and chord enter the residual only through their product; each step of the call carries the factor along, with special values included |
| C107 | refuted: a parked yawed rotor whose stations should see speeds 1 and 2; the relative speed of both is the one number the wrapper passes on |
| C108 | refuted: one wind speed and two rotor speeds give one thrust and two powers; exact lengths that are accepted proved for rotors with complete data and nonzero rotor speeds |
| C109 | proved: the annulus bound with the triangle closing up to d, W sin(phi) <= Vx (1-a) / (1-d); the root finder needs only stay in its bracket |
| C110 | proved: loop body and inflow read the object at their own index; cone angle from three stations, or equal to precone without precurve |
| C111 | refuted: curving the outer of two stations changes W at the inner one (75 instead of 100 for W^2) |
| C112 | proved: perturbing the twist of one station or the pitch gives the same seeds to the dual station routine; the rows of X for both are multiplied by the same numbers |
| C113 | proved: pow(x, 0) = 1 and pow_dv with exponent 0 is 0; all other seeds of the hub height direction are 0 |
| C114 | proved: the value model over a design that is scaled as a function of time is a power of time times its start value; the derivative theorems identify the reported sums with its derivative |
| C115 | proved: directory as a function; removing before and after makes the call a function of the other files |
| C116 | refuted: a shell that does not find XFOIL; the call raises with coordinates and script left behind |
| C117 | proved: the names end in the digits of the process id, which can be read off backwards |
| C118 | proved: running XFOIL's menus (a small machine in `FlapSpec.v`) line by line over the script |
| C119 | proved: no zero of the residual beyond 90 degrees when the triangle closes with Vx Vy > 0, so cos(phi) has the sign of Vy and the tangential coefficient is -Cd cos(phi) |
| C120 | refuted: drag coefficient one, default options, wind -1 m/s, zero at 135 degrees; sign of the power from the only brackets that can be taken |
| C121 | proved: the replaced list is the same, and the constructor's branches for None and for zeros coincide |
| C122 | proved: the loop's lookups coincide pass by pass, so the residual, hence the root, and the loads do |
| C123 | refuted for iterRe = 1 with lift proportional to the Reynolds number at a station with a known root (45 degrees); proved: which Reynolds number is used and which is reported, and that they agree for a parked station |
| C124 | proved: each of the seven segments is one clause of a specification by angle; special angles follow |
| C125 | refuted by symmetric data; proved for data starting above minus the last angle |
| C126 | proved: the coordinates of the mirrored blade are the same up to the sign of the lateral one, so the wind components are; the parked branch depends on the tangential wind only through its square |
| C127 | proved: two polars between the same ends lie on the same grid and interpolation at grid angles returns the tabulated values |
| C128 | refuted: Reynolds numbers {1,3} and {2,4}, five polars instead of four; proved for equal Reynolds numbers |
| C129 | proved: the correction multiplies all residuals of the fit by one number, so they stay orthogonal to lines and the minimiser stays; drag at zero angle stays because interpolation is affine |
| C130 | refuted: chord 1/20 of the radius lowers the lift, chord 4/5 overshoots the line; the exact condition proved |
| C131 | proved: on one grid blending and interpolating in the angle commute, and the lookup picks the segment of the polygon |
| C132 | refuted: the range of angles jumps at a stored Reynolds number when the next polar covers fewer angles; proved on one grid |
| C133 | proved: direct and inverse mode, stations above the ground when there is shear |
| C134 | refuted: when lift falls beyond a peak the residual has several zeros in the first bracket, and the load depends on which one the root finder returns; proved for lift that does not fall with the angle of attack, without drag in the induction, with or without losses and wake rotation (with losses: for angles found outside the narrow guarded band of the empirical high-loading formula); of any two angles found the larger has less lift, and with drag in the induction less lift or a different drag |
| C135 | proved: forces not negative (strict rise: positive), outside the guarded band of the empirical high-loading formula |

A property that turns out false is reported by a theorem named `..._refuted`
exhibiting the input, plus theorems for what does hold.

## 5. Trusted base

Coq's kernel; the Coq standard library's axioms for real numbers and classical
logic as printed by `Print Assumptions` under every theorem (listed in section
6); the faithfulness of the hand-written model to
the source (comments cite lines). No axioms of our own.

## 6. Axioms per theorem

As printed by `Print Assumptions` (all from the Coq standard library: `ClassicalDedekindReals.sig_not_dec`,
`ClassicalDedekindReals.sig_forall_dec`, `FunctionalExtensionality.functional_extensionality_dep`,
`Classical_Prop.classic`). No other axiom occurs.

* **none (closed under the global context)**: C105_no_condition, C117_names, C117_distinct, C117_deflections, C82_written_is_declared, C82_declared_is_written, C82_names.

* **`sig_forall_dec`**: C91_to_array, C91_from_array, C91_roundtrip_refuted, C91_array_refuted, C79_swallowed, C06_cross_array, C81_in_place.

* **`functional_extensionality_dep`, `sig_forall_dec`**: C54_terminates, C54_recovers, C54_bad_row, C54_missing_table, C54_no_tables, C54_bad_count, C61_polygon, C61_table_points, C61_clamped, C61_bounds, C61_monotone, C127_between, C127_toward, C127_no_common_angle, C127_airfoil_swap, C128_airfoil_steps_refuted, C128_same_Reynolds, C79_exact, C03_right_handed_refuted, C06_cross_algebra, C06_cross_jacobian, C81_operators, C115_cleans_up, C115_other_files, C115_old_files, C115_object, C116_no_xfoil, C116_short_table, C116_always_cleans_refuted, C117_calls, C118_flapped, C131_linear, C131_lipschitz, C132_continuous_refuted, C132_one_grid, C43_blend_wellformed, C44_blend_weights, C44_blend_ends, C44_blend_self, C44_blend_swap, C44_blend_between, C45_airfoil_sorted, C45_lookup, C45_lookup_Re, C46_lookup_exact, C47_airfoil_blend, C47_common_range, C48_common_alpha, C49_data_grid, C68_weight_zero_refuted, C68_weight_zero_partial, C69_distinct_refuted, C69_distinct_partial, C95_blend, C95_common_alpha, C96_no_parameters.

* **`functional_extensionality_dep`, `sig_forall_dec`, `sig_not_dec`**: C55_read_back_refuted, C70_units_refuted, C70_parameters_partial, C70_stall_partial, C71_zeros_refuted, C71_zeros_partial, C27_radius, C30_sector_rule, C31_stations, C31_constructs, C32_precurve_refuted, C32_precurve_kept, C32_presweep_kept, C32_none, C37_implicit_total, C62_max_eff, C62_max_eff_nan, C62_max_eff_cylinder, C62_awayfromstall, C62_awayfromstall_cylinder, C63_short_fails, C78_two_angles, C78_accepts, C78_single_Re, C99_grid, C99_single, C99_file, C100_positive_refuted, C100_positive_partial, C01_roundtrip, C01_roundtrip_chain, C02_dot_preserved, C02_cross_preserved, C66_documented_axis, C03_handedness_law, C04_no_keyerror, C05_repeated_angle_refuted, C81_linear, C56_geometry_values, C56_geometry_partials, C56_same_radius, C76_last_station_partial, C33_no_relative_wind, C94_constructor_raises, C92_moment_beyond_data, C92_moment_at_180, C92_no_moment, C89_radius, C95_extrapolate, C50_extrapolate_structure, C50_extrapolate_raises, C50_airfoil, C51_increasing_refuted, C51_increasing_partial, C52_lift_drag_join, C52_moment_refuted, C52_moment_partial, C82_geometry, C121_straight_loads, C121_straight_evaluate, C96_file_text.

* **`classic`, `functional_extensionality_dep`, `sig_forall_dec`, `sig_not_dec`**: C107_station_speeds_refuted, C107_one_speed, C134_same_loads_refuted, C134_losses, C134_attached, C134_stall, C134_drag, C07_wind_is_frame_chain, C08_wind_axisymmetric, C08_wind_closed_form, C09_straight_blade, C10_rigid_coning, C10_path_independent_of_precone, C67_total_cone, C11_exact_integral, C11_interpolants_exist, C12_linear, C12_thrust_nonneg, C101_power, C101_coefficient, C102_betz_always_refuted, C109_power, C109_coefficient, C109_residual, C08_loads, C22_station_independent, C26_pointwise, C26_history_free, C27_outputs, C28_sector_count, C29_side_moment_refuted, C29_balanced, C29_one_sector, C42_angle, C42_residual, C38_section_load_gradients, C39_reynolds_refuted, C39_residual_gradient_partial, C39_parked_gradients_partial, C40_dr_diagonal_refuted, C40_straight_blade_partial, C41_iterRe_refuted, C41_reynolds_free_partial, C64_load_dictionaries, C64_evaluate_dictionaries, C65_coefficient_gradients, C63_unsteady_refuted, C63_no_dip_fails, C63_convex_fails, C63_when, C80_moving, C80_flat, C04_component_derivatives, C04_angle_derivatives, C05_first_occurrence, C57_lift_and_drag, C58_twist_cap, C59_load_signs, C59_latest_call, C59_load_partials, C60_density_partial_refuted, C60_density_partials_zero, C60_other_partials_partial, C72_yaw_partial_refuted, C73_hub_radius_refuted, C74_twist_totals_refuted, C75_design_reynolds_refuted, C75_design_point_partial, C76_tip_speed_refuted, C77_root_point_refuted, C129_order, C129_lift_times, C130_stall_delay_refuted, C130_overshoot_refuted, C130_delayed_when, C130_small_chord, C33_relativewind_dv, C34_inductionfactors_dv, C35_definecurvature_dv2, C35_definecurvature_dv, C35_windcomponents_dv, C36_thrusttorque_bv, C119_section, C119_power, C120_drag_brakes_refuted, C120_power_sign, C120_section, C105_calls_return, C114_section_loads, C114_outputs, C114_coefficients, C114_speeds, C108_lengths_refuted, C108_equal_lengths, C108_when, C108_errors, C108_counts, C108_one_wind, C97_parked_nan, C97_zero_load_nan, C97_finite_derivatives_refuted, C97_same_numbers, C97_rates_are_finite, C98_one_sector_nan, C98_zero_force_nan, C98_one_station_nan, C98_same_numbers, C98_rates_divisors, C98_finite_derivatives_refuted, C113_section_loads, C113_rotor, C113_load_derivatives, C113_rotor_derivatives, C13_loss_factor, C13_no_invalid_operation, C14_axial_balance, C14_tangential_balance, C15_a_below_one, C15_a_increasing, C16_smooth_switch, C16_all_loss_factors_refuted, C17_guard_error, C18_velocity_triangle, C19_usecd_off, C19_wakerotation_off, C19_tiploss_off, C19_hubloss_off, C42_solves, C42_designed_angle, C94_curve_refused, C94_too_few, C110_section, C110_neighbours, C110_straight, C111_own_place_refuted, C135_axial, C135_residual, C135_strict, C126_wind, C126_parked_loads, C126_parked_totals, C87_parked_loads, C87_parked_inverse, C87_any_solver, C88_facing, C88_parked_drag_refuted, C112_section_loads, C112_outputs, C89_wind, C89_parked, C89_totals, C90_coning_sections_refuted, C90_coning_totals_refuted, C53_correction, C53_no_rotation, C122_section_loads, C122_rotor, C122_one_pass, C123_lookup, C123_parked, C123_coefficients_refuted, C82_loads, C82_density, C83_section_loads, C83_rotor, C84_azimuthal_mean, C85_section_loads, C85_rotor, C86_full_turn, C86_half_turn, C86_reversed_rotor, C106_section_loads, C106_rotor, C20_bracket, C20_station_angle, C20_bracket_unique, C21_propeller_brake_refuted, C21_reachable_without_losses, C22_failed_solve, C22_failed_solve_returns, C22_no_wake_rotation_refuted, C23_solution_exists, C23_solve_succeeds, C24_zero_wind, C24_zero_wind_inverse, C25_loads, C25_loads_inverse, C25_recover, C121_loads, C121_evaluate, C121_presweep, C103_power_thrust, C103_thrust, C103_coefficients, C37_angle_moves, C37_unique_zero, C64_unique_zero, C64_unique_zero_evaluate, C104_thick_blade, C104_both_refused, C104_needed, C93_twist_outputs, C124_rows, C124_closes, C125_symmetric, C125_lower_end_refuted, C125_lower_end, C133_relative_wind, C133_parked.

## 7. How to read the mutation log

`seeded/LOG.jsonl` has one line per edit of a model definition. The field
`evidence` says how `theorems_failed` was obtained.

* *dependency, kernel* (50 edits, ids A..): every failing lemma was replaced by
  an assumption and `Print Assumptions` shows which theorems then rest on it.
  The claim was written by hand.
* *inferred* (1359 edits, generated): the run stopped at the first failing lemma
  that some theorem depends on. The theorems are found by following names in the
  sources. They were not checked one by one, so the list is an upper bound, and
  `claim` is only the titles of their properties. A failing helper lemma shows
  that the proof notices the edit. It does not show that the English claim is
  false for the edited program: G9_002 (hub loss ignored) broke a lemma under
  C135_axial, which stays true for it. C135_strict was added for that reason.
* *counterexample* (8 edits, ids G9_..): worked out by hand, not in Coq.
* the others: no failing theorem identified; `meaning` or `claim` says why.

An edit that no lemma notices is the strong finding of these runs. The theorems
added or strengthened because of one are in `theorems_tightened`.
