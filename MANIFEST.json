{
 "claims": [
  {
   "property": "C01",
   "status": "proved",
   "theorems": [
    "C01_roundtrip",
    "C01_roundtrip_chain"
   ],
   "note": "exact real arithmetic"
  },
  {
   "property": "C02",
   "status": "proved",
   "theorems": [
    "C02_dot_preserved",
    "C02_cross_preserved"
   ],
   "note": "exact real arithmetic"
  },
  {
   "property": "C03",
   "status": "partial",
   "theorems": [
    "C03_right_handed_refuted",
    "C03_handedness_law"
   ],
   "note": "REFUTED as stated: the profile conversion is a reflection; the law that does hold for every chain is proved"
  },
  {
   "property": "C04",
   "status": "proved",
   "theorems": [
    "C04_component_derivatives",
    "C04_angle_derivatives",
    "C04_no_keyerror"
   ],
   "note": "chains starting from a fresh vector"
  },
  {
   "property": "C05",
   "status": "partial",
   "theorems": [
    "C05_repeated_angle_refuted",
    "C05_first_occurrence"
   ],
   "note": "REFUTED: with a repeated angle only the first occurrence is differentiated; full characterisation proved"
  },
  {
   "property": "C06",
   "status": "proved",
   "theorems": [
    "C06_cross_algebra",
    "C06_cross_jacobian",
    "C06_cross_array"
   ],
   "note": ""
  },
  {
   "property": "C07",
   "status": "proved",
   "theorems": [
    "C07_wind_is_frame_chain"
   ],
   "note": "for stations above ground level, or any station when shearExp = 0"
  },
  {
   "property": "C08",
   "status": "proved",
   "theorems": [
    "C08_wind_axisymmetric",
    "C08_wind_closed_form",
    "C08_loads"
   ],
   "note": "wind components in closed form; distributed loads (values, exceptions and stored state) the same at every azimuth, also in inverse mode"
  },
  {
   "property": "C09",
   "status": "proved",
   "theorems": [
    "C09_straight_blade"
   ],
   "note": ""
  },
  {
   "property": "C10",
   "status": "proved",
   "theorems": [
    "C10_rigid_coning",
    "C10_path_independent_of_precone"
   ],
   "note": ""
  },
  {
   "property": "C11",
   "status": "proved",
   "theorems": [
    "C11_exact_integral",
    "C11_interpolants_exist"
   ],
   "note": "radii hub < stations < tip strictly increasing"
  },
  {
   "property": "C12",
   "status": "proved",
   "theorems": [
    "C12_linear",
    "C12_thrust_nonneg"
   ],
   "note": "zero loads: take both coefficients 0 in C12_linear"
  },
  {
   "property": "C13",
   "status": "proved",
   "theorems": [
    "C13_loss_factor",
    "C13_no_invalid_operation"
   ],
   "note": "NaN/Inf/signed-zero carrier used for the 'no division by zero' part."
  },
  {
   "property": "C14",
   "status": "proved",
   "theorems": [
    "C14_axial_balance",
    "C14_tangential_balance"
   ],
   "note": ""
  },
  {
   "property": "C15",
   "status": "proved",
   "theorems": [
    "C15_a_below_one",
    "C15_a_increasing"
   ],
   "note": ""
  },
  {
   "property": "C16",
   "status": "partial",
   "theorems": [
    "C16_smooth_switch",
    "C16_all_loss_factors_refuted"
   ],
   "note": "REFUTED for all loss factors: near F = 5/6 the guard band covers the switch and the induction has a kink (theorem C16_all_loss_factors_refuted). Proved for every loss factor for which the band does not cover the switch."
  },
  {
   "property": "C17",
   "status": "proved",
   "theorems": [
    "C17_guard_error"
   ],
   "note": ""
  },
  {
   "property": "C18",
   "status": "proved",
   "theorems": [
    "C18_velocity_triangle"
   ],
   "note": ""
  },
  {
   "property": "C19",
   "status": "proved",
   "theorems": [
    "C19_usecd_off",
    "C19_wakerotation_off",
    "C19_tiploss_off",
    "C19_hubloss_off",
    "C13_loss_factor",
    "C25_loads"
   ],
   "note": "Each switch off: independence theorem for the kernel. Each switch on: Prandtl factor (C13_loss_factor). Drag in loads for all switches: C25_loads."
  },
  {
   "property": "C20",
   "status": "proved",
   "theorems": [
    "C20_bracket",
    "C20_station_angle",
    "C20_bracket_unique"
   ],
   "note": "brentq is an arbitrary function; premise: a returned value lies in the interval."
  },
  {
   "property": "C21",
   "status": "partial",
   "theorems": [
    "C21_propeller_brake_refuted",
    "C21_reachable_without_losses"
   ],
   "note": "REFUTED: with a loss correction on, the residual is NaN at every negative angle, so the propeller-brake interval is never chosen. Reachable with both corrections off."
  },
  {
   "property": "C22",
   "status": "partial",
   "theorems": [
    "C22_failed_solve",
    "C22_failed_solve_returns",
    "C22_no_wake_rotation_refuted",
    "C22_station_independent"
   ],
   "note": "REFUTED without wake rotation (a rejected solve reports Np < 0). Holds for all inputs with wake rotation on. Other stations are unaffected (C22_station_independent)."
  },
  {
   "property": "C23",
   "status": "proved",
   "theorems": [
    "C23_solution_exists",
    "C23_solve_succeeds"
   ],
   "note": "Residual evaluated with IEEE special values; iterRe = 1."
  },
  {
   "property": "C24",
   "status": "proved",
   "theorems": [
    "C24_zero_wind",
    "C24_zero_wind_inverse"
   ],
   "note": "Both modes, rotating or parked."
  },
  {
   "property": "C25",
   "status": "proved",
   "theorems": [
    "C25_loads",
    "C25_loads_inverse",
    "C25_recover"
   ],
   "note": "Both modes, whenever the reported cl, cd, W, alpha are finite."
  },
  {
   "property": "C26",
   "status": "proved",
   "theorems": [
    "C26_pointwise",
    "C26_history_free"
   ],
   "note": "histories include calls that raised"
  },
  {
   "property": "C27",
   "status": "proved",
   "theorems": [
    "C27_outputs",
    "C27_radius"
   ],
   "note": ""
  },
  {
   "property": "C28",
   "status": "proved",
   "theorems": [
    "C28_sector_count"
   ],
   "note": "also: same exceptions and same W"
  },
  {
   "property": "C29",
   "status": "partial",
   "theorems": [
    "C29_side_moment_refuted",
    "C29_balanced",
    "C29_one_sector"
   ],
   "note": "REFUTED: with the single sector the constructor chooses, My is B times the flap moment of one blade; with 2 or more sectors Y, Z, My, Mz vanish."
  },
  {
   "property": "C30",
   "status": "proved",
   "theorems": [
    "C30_sector_rule"
   ],
   "note": ""
  },
  {
   "property": "C31",
   "status": "proved",
   "theorems": [
    "C31_stations",
    "C31_constructs"
   ],
   "note": "float arrays"
  },
  {
   "property": "C32",
   "status": "partial",
   "theorems": [
    "C32_precurve_refuted",
    "C32_precurve_kept",
    "C32_presweep_kept",
    "C32_none"
   ],
   "note": "REFUTED when precurveTip equals the last precurve value but Rtip is not the last station. Proved: only the last value can change, and it does not if it differs from the tip value."
  },
  {
   "property": "C33",
   "status": "proved",
   "theorems": [
    "C33_relativewind_dv",
    "C33_no_relative_wind"
   ],
   "note": "along arbitrary differentiable curves of all inputs, each direction; hypothesis: inside one of the three formulas (|a|, |ap| not equal 10, W not 0)"
  },
  {
   "property": "C34",
   "status": "proved",
   "theorems": [
    "C34_inductionfactors_dv"
   ],
   "note": "all nine inputs, all switches, phi>0 and phi<0 (losses off or their exponent positive), including k=2/3 outside the guarded band; away from phi=0, k=1 (phi<0), band edges"
  },
  {
   "property": "C35",
   "status": "proved",
   "theorems": [
    "C35_definecurvature_dv",
    "C35_definecurvature_dv2",
    "C35_windcomponents_dv"
   ],
   "note": "n >= 2 stations; no segment along the cut of atan2; shear: positive height or zero exponent"
  },
  {
   "property": "C36",
   "status": "proved",
   "theorems": [
    "C36_thrusttorque_bv"
   ],
   "note": "any n, any seeds; no segment of the extended blade along the cut of atan2"
  },
  {
   "property": "C37",
   "status": "proved",
   "theorems": [
    "C37_implicit_total",
    "C37_angle_moves",
    "C37_unique_zero"
   ],
   "note": "For all functions with gradients and every differentiable curve on the zero set of the residual. C37_angle_moves: if the angle is the only zero of the residual in an interval, its differentiability is proved, not assumed."
  },
  {
   "property": "C38",
   "status": "proved",
   "theorems": [
    "C38_section_load_gradients"
   ],
   "note": "iterRe = 1, Reynolds-independent differentiable airfoils, inside the branches of the induction formulas; Tp needs Ct <> 0."
  },
  {
   "property": "C39",
   "status": "partial",
   "theorems": [
    "C39_reynolds_refuted",
    "C39_residual_gradient_partial",
    "C39_parked_gradients_partial"
   ],
   "note": "REFUTED for Reynolds-dependent airfoils (concrete station where the reported dTp/dVy is not the derivative). The residual's gradient, and the load gradients of a parked rotor, are exact for every differentiable airfoil."
  },
  {
   "property": "C40",
   "status": "partial",
   "theorems": [
    "C40_dr_diagonal_refuted",
    "C40_straight_blade_partial"
   ],
   "note": "REFUTED for bent blades: Vx of a station depends on r of its neighbour, while the reported Jacobian is always diagonal. Holds for straight blades."
  },
  {
   "property": "C41",
   "status": "partial",
   "theorems": [
    "C41_iterRe_refuted",
    "C41_reynolds_free_partial"
   ],
   "note": "REFUTED for every iterRe >= 2: the ValueError is created but not raised. For Reynolds-independent airfoils the answer equals the one for iterRe = 1."
  },
  {
   "property": "C42",
   "status": "proved",
   "theorems": [
    "C42_angle",
    "C42_residual",
    "C42_solves",
    "C42_designed_angle"
   ],
   "note": "Stations whose solve yields zero loads (C22, C24) excepted. C42_solves and C42_designed_angle suppose a root finder that returns exact zeros; brentq's tolerance is not modelled."
  },
  {
   "property": "C43",
   "status": "proved",
   "theorems": [
    "C43_blend_wellformed"
   ],
   "note": "usable polars: non-empty, increasing angles, one coefficient per angle"
  },
  {
   "property": "C44",
   "status": "proved",
   "theorems": [
    "C44_blend_weights",
    "C44_blend_ends",
    "C44_blend_self",
    "C44_blend_swap",
    "C44_blend_between"
   ],
   "note": ""
  },
  {
   "property": "C45",
   "status": "proved",
   "theorems": [
    "C45_airfoil_sorted",
    "C45_lookup",
    "C45_lookup_Re"
   ],
   "note": "also proved: order of equal Reynolds numbers kept (stable)"
  },
  {
   "property": "C46",
   "status": "proved",
   "theorems": [
    "C46_lookup_exact"
   ],
   "note": ""
  },
  {
   "property": "C47",
   "status": "proved",
   "theorems": [
    "C47_airfoil_blend",
    "C47_common_range"
   ],
   "note": "all polars must cover a common angle; otherwise an intermediate blend is empty and the next blend raises ValueError (see C68)"
  },
  {
   "property": "C48",
   "status": "proved",
   "theorems": [
    "C48_common_alpha"
   ],
   "note": ""
  },
  {
   "property": "C49",
   "status": "proved",
   "theorems": [
    "C49_data_grid"
   ],
   "note": ""
  },
  {
   "property": "C50",
   "status": "proved",
   "theorems": [
    "C50_extrapolate_structure",
    "C50_extrapolate_raises",
    "C50_airfoil"
   ],
   "note": "Hypotheses: well-formed polar inside [-90, 90) degrees with, when the moment is not identically zero, at least two rows. A last angle of exactly 90 is left out: the code divides by cos(90 deg) there."
  },
  {
   "property": "C51",
   "status": "partial",
   "theorems": [
    "C51_increasing_refuted",
    "C51_increasing_partial"
   ],
   "note": "REFUTED for every polar whose first angle is <= minus its last angle (e.g. symmetric data): an angle is duplicated. Proved strictly increasing for all other data with 0 < alpha[-1] < 90."
  },
  {
   "property": "C52",
   "status": "partial",
   "theorems": [
    "C52_lift_drag_join",
    "C52_moment_refuted",
    "C52_moment_partial"
   ],
   "note": "Lift and drag join proved for last angle in [1e-4 rad, 90 deg). Moment REFUTED when an end angle is a multiple of ten degrees (moment 0 there); proved for all other end angles when the moment formula's divisors are not zero."
  },
  {
   "property": "C53",
   "status": "proved",
   "theorems": [
    "C53_correction",
    "C53_no_rotation"
   ],
   "note": "Line fit (numpy polyfit) is an arbitrary function; premises: it returns slope m <> 0, chord/r > 0, tsr <> 0, r/R <> 0."
  },
  {
   "property": "C54",
   "status": "proved",
   "theorems": [
    "C54_terminates",
    "C54_recovers",
    "C54_bad_row",
    "C54_bad_count",
    "C54_missing_table",
    "C54_no_tables"
   ],
   "note": "ASCII text, newline-terminated lines; float() and int() of a token are arbitrary partial functions. The while-True loop is modelled with fuel and shown to finish."
  },
  {
   "property": "C55",
   "status": "partial",
   "theorems": [
    "C55_read_back_refuted"
   ],
   "note": "REFUTED: writeToAerodynFile writes no newlines, so for every airfoil (with an angle in the linear range) writing succeeds and reading back raises IndexError."
  },
  {
   "property": "C56",
   "status": "proved",
   "theorems": [
    "C56_geometry_values",
    "C56_geometry_partials",
    "C56_same_radius"
   ],
   "note": "Values, partials along every differentiable motion, same radius as CCBlade."
  },
  {
   "property": "C57",
   "status": "proved",
   "theorems": [
    "C57_lift_and_drag"
   ],
   "note": "For every station with finite coefficients, speed, angle and twist. W is the speed of the azimuth-0 loads."
  },
  {
   "property": "C58",
   "status": "proved",
   "theorems": [
    "C58_twist_cap"
   ],
   "note": "With inn_af the capped profile is passed through two spline interpolations that are not modelled; there the claim is about the profile before them."
  },
  {
   "property": "C59",
   "status": "proved",
   "theorems": [
    "C59_load_signs",
    "C59_latest_call",
    "C59_load_partials"
   ],
   "note": "All histories. Derivative part: Reynolds-independent airfoils, stations strictly between hub and tip, Tp <> 0, and the regularity premises of C64."
  },
  {
   "property": "C60",
   "status": "partial",
   "theorems": [
    "C60_density_partial_refuted",
    "C60_density_partials_zero",
    "C60_other_partials_partial"
   ],
   "note": "REFUTED for air density: the reported partial is 0, the true one is output/rho. All other inputs proved under the premises of C64."
  },
  {
   "property": "C61",
   "status": "proved",
   "theorems": [
    "C61_polygon",
    "C61_table_points",
    "C61_clamped",
    "C61_bounds",
    "C61_monotone"
   ],
   "note": ""
  },
  {
   "property": "C62",
   "status": "proved",
   "theorems": [
    "C62_max_eff",
    "C62_max_eff_nan",
    "C62_max_eff_cylinder",
    "C62_awayfromstall",
    "C62_awayfromstall_cylinder"
   ],
   "note": "Spline values are an arbitrary function of angle and Reynolds number. A cylinder is what the code takes for one: the row closest to 40 degrees not after the row closest to -20 degrees. A 0/0 on the scan wins (second theorem)."
  },
  {
   "property": "C63",
   "status": "partial",
   "theorems": [
    "C63_unsteady_refuted",
    "C63_no_dip_fails",
    "C63_convex_fails",
    "C63_short_fails",
    "C63_when"
   ],
   "note": "REFUTED: raises IndexError for a moment constant over the search window, and for every polar whose moment is convex (e.g. linear) in the angle; a polar of fewer than two rows raises ValueError. C63_when says exactly when it succeeds for moments without equal neighbours."
  },
  {
   "property": "C64",
   "status": "proved",
   "theorems": [
    "C64_load_dictionaries",
    "C64_evaluate_dictionaries",
    "C64_unique_zero",
    "C64_unique_zero_evaluate"
   ],
   "note": "Every dictionary entry, user units, any number of stations and azimuths; hypotheses: iterRe = 1 with Reynolds-independent airfoils (or parked rotor), the solver follows a simple zero differentiably (or, C64_unique_zero and C64_unique_zero_evaluate, only returns the only zero in an interval), r fixed or straight blade (see C39-C41)."
  },
  {
   "property": "C65",
   "status": "proved",
   "theorems": [
    "C65_coefficient_gradients",
    "C64_evaluate_dictionaries"
   ],
   "note": "Same hypotheses as C64 plus the non-zero divisors the code divides by."
  },
  {
   "property": "C66",
   "status": "proved",
   "theorems": [
    "C66_documented_axis"
   ],
   "note": ""
  },
  {
   "property": "C67",
   "status": "proved",
   "theorems": [
    "C67_total_cone"
   ],
   "note": ""
  },
  {
   "property": "C68",
   "status": "partial",
   "theorems": [
    "C68_weight_zero_refuted",
    "C68_weight_zero_partial"
   ],
   "note": "REFUTED: weight 0 truncates self to the common range and may add angles; the partial theorem characterises exactly when self is returned"
  },
  {
   "property": "C69",
   "status": "partial",
   "theorems": [
    "C69_distinct_refuted",
    "C69_distinct_partial"
   ],
   "note": "REFUTED at weight 0; holds for weights strictly inside (0,1) when the Reynolds ranges meet"
  },
  {
   "property": "C70",
   "status": "partial",
   "theorems": [
    "C70_units_refuted",
    "C70_parameters_partial",
    "C70_stall_partial"
   ],
   "note": "REFUTED: the angle of minimum drag is reported in radians. All other parameters proved: consistent with the fitted line (slope assumed non-zero), and the stall angles found from the excess of the line over the interpolated normal force (np.interp on these tables, which need not be sorted, is an arbitrary function)."
  },
  {
   "property": "C71",
   "status": "partial",
   "theorems": [
    "C71_zeros_refuted",
    "C71_zeros_partial"
   ],
   "note": "REFUTED: len(idx) tests the mask length, so data with no point in the linear range reach polyfit with empty arrays and raise. Proved: fewer than ten rows or ten distinct lifts give zeros."
  },
  {
   "property": "C72",
   "status": "partial",
   "theorems": [
    "C72_yaw_partial_refuted"
   ],
   "note": "REFUTED: Mhub jumps at zero yaw because the number of azimuths changes, so no derivative exists while partials are reported. For inputs with the number of azimuths locally constant see C60_other_partials_partial."
  },
  {
   "property": "C73",
   "status": "partial",
   "theorems": [
    "C73_hub_radius_refuted",
    "C59_load_partials"
   ],
   "note": "REFUTED: the load at the first station jumps. C59_load_partials holds when r[0] <> Rhub."
  },
  {
   "property": "C74",
   "status": "partial",
   "theorems": [
    "C74_twist_totals_refuted"
   ],
   "note": "REFUTED: P, T, Q, M are declared but never assigned."
  },
  {
   "property": "C75",
   "status": "partial",
   "theorems": [
    "C75_design_reynolds_refuted",
    "C75_design_point_partial"
   ],
   "note": "REFUTED: Omega in RPM is used, the Reynolds number is 30/pi times too large. C75_design_point_partial says what is stored."
  },
  {
   "property": "C76",
   "status": "partial",
   "theorems": [
    "C76_tip_speed_refuted",
    "C76_last_station_partial"
   ],
   "note": "REFUTED: the last station takes the place of the tip. Holds when r[-1] = Rtip."
  },
  {
   "property": "C77",
   "status": "partial",
   "theorems": [
    "C77_root_point_refuted",
    "C75_design_point_partial"
   ],
   "note": "REFUTED for root stations of relative thickness 95 or more. Holds outboard of them (C75_design_point_partial)."
  },
  {
   "property": "C78",
   "status": "proved",
   "theorems": [
    "C78_two_angles",
    "C78_accepts",
    "C78_single_Re"
   ],
   "note": "What RectBivariateSpline accepts, and that it is constant across identical columns, are premises."
  },
  {
   "property": "C79",
   "status": "proved",
   "theorems": [
    "C79_exact",
    "C79_swallowed"
   ],
   "note": "That bisplev gives the derivatives of the fitted splines is a premise."
  },
  {
   "property": "C80",
   "status": "proved",
   "theorems": [
    "C80_moving",
    "C80_flat"
   ],
   "note": "numpy.interp on the unsorted lift table is an arbitrary function."
  },
  {
   "property": "C81",
   "status": "proved",
   "theorems": [
    "C81_operators",
    "C81_in_place",
    "C81_linear"
   ],
   "note": "Division asks for non-zero divisors."
  },
  {
   "property": "C82",
   "status": "proved",
   "theorems": [
    "C82_names",
    "C82_written_is_declared",
    "C82_declared_is_written",
    "C82_geometry",
    "C82_loads",
    "C82_density"
   ],
   "note": "The framework's rule for overlapping declarations is modelled from its documented behaviour (ComponentSetup.v). Loads: stations strictly inside hub and tip."
  },
  {
   "property": "C83",
   "status": "proved",
   "theorems": [
    "C83_section_loads",
    "C83_rotor"
   ],
   "note": "Exact reals with IEEE special values; the root finder is any function of residual and bracket."
  },
  {
   "property": "C84",
   "status": "proved",
   "theorems": [
    "C84_azimuthal_mean"
   ],
   "note": "For conditions with finite loads. blade_force/blade_moment are thrustTorque's integrals (C09-C11)."
  },
  {
   "property": "C85",
   "status": "proved",
   "theorems": [
    "C85_section_loads",
    "C85_rotor"
   ],
   "note": ""
  },
  {
   "property": "C86",
   "status": "proved",
   "theorems": [
    "C86_full_turn",
    "C86_half_turn",
    "C86_reversed_rotor"
   ],
   "note": ""
  },
  {
   "property": "C87",
   "status": "proved",
   "theorems": [
    "C87_parked_loads",
    "C87_parked_inverse",
    "C87_any_solver"
   ],
   "note": "npi is the floating point pi; wind components are those of windComponents (C07)."
  },
  {
   "property": "C88",
   "status": "partial",
   "theorems": [
    "C88_facing",
    "C88_parked_drag_refuted"
   ],
   "note": "REFUTED: with zero yaw and tilt Vy is exactly zero, __loads then returns zeros, and all loads of the parked rotor are zero (C88_facing) although the drag at any small yaw is not."
  },
  {
   "property": "C89",
   "status": "proved",
   "theorems": [
    "C89_wind",
    "C89_parked",
    "C89_totals",
    "C89_radius"
   ],
   "note": "places given by the frame conversions of csystem.py"
  },
  {
   "property": "C90",
   "status": "partial",
   "theorems": [
    "C90_coning_sections_refuted",
    "C90_coning_totals_refuted"
   ],
   "note": "REFUTED: solidity, loss factors use r itself, so induction factors differ; the blade root has no precurve. What depends only on the place of the blade is C89."
  },
  {
   "property": "C91",
   "status": "partial",
   "theorems": [
    "C91_to_array",
    "C91_from_array",
    "C91_roundtrip_refuted",
    "C91_array_refuted"
   ],
   "note": "REFUTED as stated, in both directions; proved instead: the exact result of toArray, of fromArray and of both compositions, and when the round trip is the identity."
  },
  {
   "property": "C92",
   "status": "proved",
   "theorems": [
    "C92_moment_beyond_data",
    "C92_moment_at_180",
    "C92_no_moment"
   ],
   "note": "At an end of the data that is itself a multiple of ten the table value is 0 instead of the data's moment (see C52); the entries at +-165 and +-175 are never reached, since the table angles are multiples of ten."
  },
  {
   "property": "C93",
   "status": "proved",
   "theorems": [
    "C93_twist_outputs"
   ],
   "note": "All outputs compute writes besides theta (C58), LiftF, DragF and the loads in the blade and airfoil frames (C57). Resampled outputs: stated for finite station values, increasing r and one twist per station; np.nan_to_num modelled for NaN only (it also replaces infinities by huge numbers)."
  },
  {
   "property": "C94",
   "status": "proved",
   "theorems": [
    "C94_constructor_raises",
    "C94_curve_refused",
    "C94_too_few"
   ],
   "note": "The two array shapes come from the Python constructor and the f2py calls of distributedAeroLoads."
  },
  {
   "property": "C95",
   "status": "proved",
   "theorems": [
    "C95_blend",
    "C95_common_alpha",
    "C95_extrapolate"
   ],
   "note": ""
  },
  {
   "property": "C96",
   "status": "proved",
   "theorems": [
    "C96_file_text",
    "C96_no_parameters"
   ],
   "note": "float formatting, float() and int() are arguments; that the file actually written cannot be read back is C55."
  },
  {
   "property": "C97",
   "status": "partial",
   "theorems": [
    "C97_finite_derivatives_refuted",
    "C97_parked_nan",
    "C97_zero_load_nan",
    "C97_same_numbers",
    "C97_rates_are_finite"
   ],
   "note": "REFUTED as stated: for every parked rotor that faces the wind all entries of dNp and dTp are NaN (C97_parked_nan), and at any station where a load is exactly 0 all its derivatives are NaN (C97_zero_load_nan). What holds is proved: where no divisor is zero (C97_same_numbers), in particular under the hypotheses of C64 with a non-zero tangential coefficient (C97_rates_are_finite), the entries are the numbers of the exact dictionaries."
  },
  {
   "property": "C98",
   "status": "partial",
   "theorems": [
    "C98_finite_derivatives_refuted",
    "C98_one_sector_nan",
    "C98_zero_force_nan",
    "C98_one_station_nan",
    "C98_same_numbers",
    "C98_rates_divisors"
   ],
   "note": "REFUTED as stated: with one azimuth (what the class uses without tilt, yaw and shear) Mz = 0 and every scalar entry of dCMz is NaN (C98_one_sector_nan); the same for any force or moment equal to 0 and for dCP of a parked rotor (C98_zero_force_nan); one station without tangential load at one azimuth makes the scalar entries of all sixteen dictionaries NaN (C98_one_station_nan). What holds is proved: where no divisor is zero the entries are the numbers of the exact dictionaries (C98_same_numbers); the hypotheses of C64 and C65 exclude zero divisors (C98_rates_divisors)."
  },
  {
   "property": "C99",
   "status": "proved",
   "theorems": [
    "C99_grid",
    "C99_single",
    "C99_file"
   ],
   "note": "RectBivariateSpline is an arbitrary function; premises: residual sum of squares at most s (1 + 1/1000), and for one Reynolds number constancy across equal columns."
  },
  {
   "property": "C100",
   "status": "partial",
   "theorems": [
    "C100_positive_refuted",
    "C100_positive_partial"
   ],
   "note": "REFUTED: drag 0.039, 0.004, 0.004, 0.004, 0.039 at -20, -10, 0, 10, 20 degrees gives -0.002 at 0 degrees, since the best cubic already meets the absolute smoothing factor 0.001 (premise: FITPACK tries the polynomial first). What holds: drag is positive wherever the table exceeds 0.0317."
  },
  {
   "property": "C101",
   "status": "proved",
   "theorems": [
    "C101_power",
    "C101_coefficient"
   ],
   "note": "flat disc; root finder any that returns zeros inside the bracket"
  },
  {
   "property": "C102",
   "status": "partial",
   "theorems": [
    "C102_betz_always_refuted",
    "C101_power"
   ],
   "note": "REFUTED: a two-bladed rotor of constant lift and no drag settles at 135 degrees and reports 39 times the limit; C101 is what holds up to 90 degrees"
  },
  {
   "property": "C103",
   "status": "proved",
   "theorems": [
    "C103_power_thrust",
    "C103_thrust",
    "C103_coefficients"
   ],
   "note": "The thrust bound needs useCd = True; with useCd = False the momentum balance leaves the drag out and the bound is not claimed."
  },
  {
   "property": "C104",
   "status": "proved",
   "theorems": [
    "C104_thick_blade",
    "C104_both_refused",
    "C104_needed"
   ],
   "note": "design_inputs: an angle other than the marker pi and an airfoil with finite coefficients for every station; met in the Example."
  },
  {
   "property": "C105",
   "status": "proved",
   "theorems": [
    "C105_calls_return",
    "C105_no_condition"
   ],
   "note": "For root finders whose only exception is ValueError (as brentq), which the code catches."
  },
  {
   "property": "C106",
   "status": "proved",
   "theorems": [
    "C106_section_loads",
    "C106_rotor"
   ],
   "note": "Premises: tipLoss and hubLoss off, Reynolds-independent airfoils (the factors of the loss corrections contain the number of blades)."
  },
  {
   "property": "C107",
   "status": "partial",
   "theorems": [
    "C107_station_speeds_refuted",
    "C107_one_speed"
   ],
   "note": "REFUTED for every conversion of the array by the wrapper: a call that returns has used one wind speed for all stations (C107_one_speed)."
  },
  {
   "property": "C108",
   "status": "partial",
   "theorems": [
    "C108_lengths_refuted",
    "C108_equal_lengths",
    "C108_when",
    "C108_counts",
    "C108_one_wind",
    "C108_errors"
   ],
   "note": "REFUTED: one wind speed with several rotor speeds returns one thrust and a power per rotor speed, all from the torque of the first rotor speed. Proved instead: arrays of equal length are evaluated condition by condition; for rotors with complete data and nonzero rotor speeds, the exact lengths that are accepted; the number of totals and powers; the powers in the one-wind case. Surplus pitch angles are ignored. The exception of every refused combination of lengths is given."
  },
  {
   "property": "C109",
   "status": "proved",
   "theorems": [
    "C109_power",
    "C109_coefficient",
    "C109_residual"
   ],
   "note": "The error d is a premise on the reported a, ap, alpha of stations with positive Tp; C109_residual relates it to the residual in the windmill state (non-negative loading). No assumption that the root finder finds zeros."
  },
  {
   "property": "C110",
   "status": "proved",
   "theorems": [
    "C110_section",
    "C110_neighbours",
    "C110_straight"
   ],
   "note": "Forward mode (inverse_analysis = False). C110_neighbours and C110_straight assume that the constructor moves no station (no station at hub or tip radius, last precurve and presweep not at the tip value)."
  },
  {
   "property": "C111",
   "status": "partial",
   "theorems": [
    "C111_own_place_refuted",
    "C110_neighbours",
    "C110_straight"
   ],
   "note": "REFUTED: precurve of a neighbour changes the cone angle and with it the loads. What holds: with the neighbours' places fixed (C110_neighbours), or without precurve (C110_straight)."
  },
  {
   "property": "C112",
   "status": "proved",
   "theorems": [
    "C112_section_loads",
    "C112_outputs"
   ],
   "note": "Station entries over IEEE special values; output entries over exact numbers (same numbers as the code where no divisor is zero, C98_same_numbers)."
  },
  {
   "property": "C113",
   "status": "proved",
   "theorems": [
    "C113_section_loads",
    "C113_rotor",
    "C113_load_derivatives",
    "C113_rotor_derivatives"
   ],
   "note": "Values over IEEE special values; derivative entries over exact numbers, at least two stations."
  },
  {
   "property": "C114",
   "status": "proved",
   "theorems": [
    "C114_section_loads",
    "C114_outputs",
    "C114_coefficients",
    "C114_speeds"
   ],
   "note": "Premises are those of the derivative theorems, at the given design only; the tangential load needs a nonzero tangential coefficient."
  },
  {
   "property": "C115",
   "status": "proved",
   "theorems": [
    "C115_cleans_up",
    "C115_other_files",
    "C115_old_files",
    "C115_object"
   ],
   "note": "Directory as a map from names to texts; os.system, savetxt and loadtxt are arbitrary functions."
  },
  {
   "property": "C116",
   "status": "partial",
   "theorems": [
    "C116_always_cleans_refuted",
    "C116_no_xfoil",
    "C116_short_table"
   ],
   "note": "REFUTED: without a result file the call raises and leaves coordinates and script behind. Successful calls clean up (C115)."
  },
  {
   "property": "C117",
   "status": "proved",
   "theorems": [
    "C117_names",
    "C117_distinct",
    "C117_calls",
    "C117_deflections"
   ],
   "note": "Process ids are decimal numbers. Processes on different machines of an MPI run may have equal ids; that is outside the premise."
  },
  {
   "property": "C118",
   "status": "proved",
   "theorems": [
    "C118_flapped"
   ],
   "note": "Premise: the program obeys the menu language written down in FlapSpec.v (XFOIL's manual); names and numbers without blanks."
  },
  {
   "property": "C119",
   "status": "proved",
   "theorems": [
    "C119_section",
    "C119_power"
   ],
   "note": "Any cone, tilt, yaw, shear and blade shape for the sections; flat rotor for the power. The root finder returns a zero of the residual inside its bracket."
  },
  {
   "property": "C120",
   "status": "partial",
   "theorems": [
    "C120_drag_brakes_refuted",
    "C120_power_sign",
    "C120_section"
   ],
   "note": "REFUTED: with the default options the loss factor is NaN at negative angles, so the propeller-brake bracket is never taken and the solver finds the zero at 135 degrees, where drag pushes the blade forward. Power positive at U = -1. What holds: with a loss correction and wake rotation the power is >= 0 for wind from behind and <= 0 for wind from the front; the same for the load of each section of any blade."
  },
  {
   "property": "C121",
   "status": "proved",
   "theorems": [
    "C121_loads",
    "C121_evaluate",
    "C121_straight_loads",
    "C121_straight_evaluate",
    "C121_presweep"
   ],
   "note": "Two or more stations for the last statement."
  },
  {
   "property": "C122",
   "status": "proved",
   "theorems": [
    "C122_section_loads",
    "C122_rotor",
    "C122_one_pass"
   ],
   "note": "Over fl values with the root finder as a parameter; iterRe = 0 is excluded (the loop body never runs)."
  },
  {
   "property": "C123",
   "status": "partial",
   "theorems": [
    "C123_coefficients_refuted",
    "C123_lookup",
    "C123_parked"
   ],
   "note": "REFUTED for iterRe = 1 by a station whose lift is proportional to the Reynolds number. Proved instead: at which Reynolds number the coefficients are looked up, which one is reported, and that the two agree for a parked station."
  },
  {
   "property": "C124",
   "status": "proved",
   "theorems": [
    "C124_rows",
    "C124_closes"
   ],
   "note": "Hypotheses: well-formed polar with -90 < alpha[0], 0.0001 rad <= alpha[-1] < 90 deg."
  },
  {
   "property": "C125",
   "status": "partial",
   "theorems": [
    "C125_lower_end_refuted",
    "C125_symmetric",
    "C125_lower_end"
   ],
   "note": "REFUTED by every symmetric airfoil with data symmetric about zero and nonzero end lift (C125_symmetric). Proved for data starting above minus the last angle."
  },
  {
   "property": "C126",
   "status": "proved",
   "theorems": [
    "C126_wind",
    "C126_parked_loads",
    "C126_parked_totals"
   ],
   "note": "Exact arithmetic. Nothing is claimed about the forces in the rotor plane: their sections' tangential loads are not mirrored (the twist is not)."
  },
  {
   "property": "C127",
   "status": "proved",
   "theorems": [
    "C127_between",
    "C127_toward",
    "C127_no_common_angle",
    "C127_airfoil_swap"
   ],
   "note": "Equality of the polars (all columns) over exact reals; polars with increasing angles and a common angle. C127_no_common_angle: the case without common angle."
  },
  {
   "property": "C128",
   "status": "partial",
   "theorems": [
    "C128_airfoil_steps_refuted",
    "C128_same_Reynolds"
   ],
   "note": "REFUTED: airfoils at Reynolds numbers {1,3} and {2,4} on one grid, both steps 1/2: five polars in two steps, four directly, because the intermediate airfoil has new Reynolds numbers. C128_same_Reynolds: it holds for airfoils given at the same distinct Reynolds numbers, each on one grid."
  },
  {
   "property": "C129",
   "status": "proved",
   "theorems": [
    "C129_order",
    "C129_lift_times"
   ],
   "note": "numpy.polyfit enters as any routine that returns a minimiser of the sum of squares when there are two distinct abscissae (lsq_ok: the closed formula is one)."
  },
  {
   "property": "C130",
   "status": "partial",
   "theorems": [
    "C130_stall_delay_refuted",
    "C130_overshoot_refuted",
    "C130_delayed_when",
    "C130_small_chord"
   ],
   "note": "REFUTED both ways: with chord 1/20 of the radius the lift goes down, with chord 4/5 of the radius near the hub it overshoots the line. C130_delayed_when: the exact condition. C130_small_chord: always lowered when the chord is at most 7.9 per cent of the radius."
  },
  {
   "property": "C131",
   "status": "proved",
   "theorems": [
    "C131_linear",
    "C131_lipschitz"
   ],
   "note": "Exact reals; polars with increasing angles on one grid, distinct Reynolds numbers."
  },
  {
   "property": "C132",
   "status": "partial",
   "theorems": [
    "C132_continuous_refuted",
    "C132_one_grid"
   ],
   "note": "REFUTED: three polars on the same lift line at Reynolds numbers 1, 2, 3, the last starting at 5 degrees: at Re = 2 the lift at 0 degrees is 0, just above it is 1/2, because the blend keeps only the common range of angles. C132_one_grid: continuous on one grid."
  },
  {
   "property": "C133",
   "status": "proved",
   "theorems": [
    "C133_relative_wind",
    "C133_parked"
   ],
   "note": "Stations above the ground, or no shear. Airfoils that give finite coefficients."
  },
  {
   "property": "C134",
   "status": "partial",
   "theorems": [
    "C134_same_loads_refuted",
    "C134_stall",
    "C134_drag",
    "C134_losses",
    "C134_attached"
   ],
   "note": "REFUTED as stated: with a continuous lift curve that falls beyond a peak the residual has two zeros in the first bracket; with one root finder the first station of a rotor carries a load and with another none. Proved: of two different angles found in the first bracket the larger has less lift (C134_stall, no drag in the induction, with or without losses and wake rotation, any sign of lift) or, with drag in the induction, less lift or less drag, or more drag with wake rotation (C134_drag); so for lift that does not fall with the angle of attack the angle is unique and the loads agree (C134_losses, for angles outside the guarded band of the empirical formula; C134_attached, no losses, where that band is never met)."
  },
  {
   "property": "C135",
   "status": "proved",
   "theorems": [
    "C135_axial",
    "C135_residual",
    "C135_strict"
   ],
   "note": "For a normal force that is not negative (axial induction) and also a tangential force that is not negative and angles below 90 degrees (residual; tangential induction while its loading is below 1). Loadings inside the narrow guarded band of the empirical high-loading formula are excluded: there the code uses another expression."
  }
 ]
}