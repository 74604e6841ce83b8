{"id": "C01", "title": "Frame changes are undone by their inverse", "statement": "For each of the paired DirectionVector conversions (inertial/wind, wind/yaw, yaw/hub, hub/azimuth, azimuth/blade, blade/airfoil with the same angle, and airfoil/profile) converting and converting back, in either order, returns the original x, y, z; a whole chain of conversions is undone by the reversed chain of inverse conversions.", "quantifier": "all vectors, all angles, all finite chains of conversions", "why_tests_cant": "continuum of real inputs; a test samples finitely many points and a sign or index slip can cancel at the sampled ones; chains are unbounded in length", "anchors": ["ccblade/csystem.py:DirectionVector._rotateAboutZ", "ccblade/csystem.py:DirectionVector.windToYaw ... bladeToAirfoil"]}
{"id": "C02", "title": "Frame changes are rigid rotations", "statement": "Every chain of DirectionVector conversions that does not enter or leave the profile frame preserves dot products, lengths and cross products (so handedness), i.e. (u x v) converted equals (u converted) x (v converted).", "quantifier": "all pairs of vectors, all angles, all finite chains", "why_tests_cant": "continuum of real inputs; a test samples finitely many points and a sign or index slip can cancel at the sampled ones; chains unbounded", "anchors": ["ccblade/csystem.py:DirectionVector", "ccblade/csystem.py:DirectionVector.cross"]}
{"id": "C03", "title": "All coordinate systems are right handed", "statement": "The documentation promises that all coordinate systems obey x X y = z. So every DirectionVector conversion, including airfoilToProfile/profileToAirfoil, should carry a right-handed triple to a right-handed triple.", "quantifier": "all vectors, all conversions", "why_tests_cant": "needs the sign of a determinant for all triples; no test looks at the profile frame", "anchors": ["ccblade/csystem.py:DirectionVector.airfoilToProfile", "docs/csystem.rst"]}
{"id": "C04", "title": "Conversion derivatives are the true derivatives", "statement": "Start from a fresh DirectionVector and apply any chain of conversions in which no angle is used twice: every entry of the result's dx/dy/dz dictionaries is the exact partial derivative of that component with respect to the initial x, y, z or to the named angle in degrees.", "quantifier": "all initial vectors, all angles, all chains without repeated angle names", "why_tests_cant": "finite differences check points, not the identity; chains are unbounded", "anchors": ["ccblade/csystem.py:DirectionVector._rotateAboutZ"]}
{"id": "C05", "title": "Conversion derivatives with a repeated angle", "statement": "Even when the same angle is used twice in a chain (for example windToYaw(psi) then yawToWind(psi), which is the identity), the dictionary entry for that angle is the derivative of the composite with respect to that angle.", "quantifier": "all initial vectors, all angles, all chains", "why_tests_cant": "a test of a two-step chain at one angle would be needed for every pair; none exists", "anchors": ["ccblade/csystem.py:DirectionVector._rotateAboutZ"]}
{"id": "C06", "title": "Cross product and its Jacobian", "statement": "cross() is bilinear, antisymmetric, orthogonal to both operands, and satisfies |a x b|^2 + (a.b)^2 = |a|^2|b|^2 with x X y = z; the arrays returned by cross_deriv and cross_deriv_array are its exact Jacobian with respect to both operands.", "quantifier": "all pairs of vectors and all directions", "why_tests_cant": "continuum of real inputs; a test samples finitely many points and a sign or index slip can cancel at the sampled ones", "anchors": ["ccblade/csystem.py:DirectionVector.cross", "ccblade/csystem.py:DirectionVector.cross_deriv", "ccblade/csystem.py:DirectionVector.cross_deriv_array"]}
{"id": "C07", "title": "Wind components agree with the coordinate-system module", "statement": "The Vx, Vy used at each blade station equal what the documented chain of DirectionVector conversions gives: wind vector wind->yaw->hub->azimuth->blade(total cone) plus minus (Omega x position) taken azimuth->blade, with the sheared wind speed evaluated at the height azimuth->hub->yaw of the station.", "quantifier": "all blade shapes of any number of stations, all precone/tilt/yaw/azimuth, wind speed, rotor speed, hub height, shear exponent", "why_tests_cant": "continuum of real inputs; a test samples finitely many points and a sign or index slip can cancel at the sampled ones", "anchors": ["ccblade/src/bem.f90:windComponents", "ccblade/csystem.py:DirectionVector"]}
{"id": "C08", "title": "Axisymmetric inflow does not depend on azimuth", "statement": "With tilt = yaw = 0 and shear exponent 0 the distributed loads are the same at every azimuth, and the wind components are Uinf*cos(cone) - Omega*y*sin(cone) and Omega*z.", "quantifier": "all blade shapes, wind speeds, rotor speeds, azimuth angles", "why_tests_cant": "continuum of real inputs; a test samples finitely many points and a sign or index slip can cancel at the sampled ones", "anchors": ["ccblade/src/bem.f90:windComponents", "ccblade/ccblade.py:CCBlade.distributedAeroLoads"]}
{"id": "C09", "title": "A straight blade has the cone angle it was given", "statement": "Without precurve and with increasing r, the total cone angle at every station equals precone (|precone| < 180 deg), the path length between stations is the difference in r, and the azimuthal radius is r*cos(precone).", "quantifier": "all station lists of any length, all precone angles", "why_tests_cant": "continuum of real inputs; a test samples finitely many points and a sign or index slip can cancel at the sampled ones", "anchors": ["ccblade/src/bem.f90:defineCurvature"]}
{"id": "C10", "title": "Coning a blade is rigid", "statement": "The path length along the blade starts at 0, never decreases, does not depend on precone, and is at least the straight-line distance between stations; distance from the rotor centre is unchanged by precone.", "quantifier": "all blade shapes of any number of stations, all precone angles", "why_tests_cant": "continuum of real inputs; a test samples finitely many points and a sign or index slip can cancel at the sampled ones", "anchors": ["ccblade/src/bem.f90:defineCurvature"]}
{"id": "C11", "title": "Rotor loads are exact integrals of the piecewise-linear load distribution", "statement": "Thrust, side force, vertical force, torque and flap moment of one blade equal the exact integral over blade path length of the piecewise-linear interpolant of the corresponding section quantity, extended by zero load at hub and tip.", "quantifier": "all load distributions and blade shapes, any number of stations", "why_tests_cant": "continuum of real inputs; a test samples finitely many points and a sign or index slip can cancel at the sampled ones; any number of stations", "anchors": ["ccblade/src/bem.f90:thrustTorque"]}
{"id": "C12", "title": "Integrated loads are linear in the section loads", "statement": "Thrust, side, vertical force, torque and flap moment are linear in (Np, Tp), zero for zero loads; thrust is non-negative if Np >= 0 and every cone angle is within 90 degrees.", "quantifier": "all load distributions, scalars, blade shapes of any number of stations", "why_tests_cant": "continuum of real inputs; a test samples finitely many points and a sign or index slip can cancel at the sampled ones", "anchors": ["ccblade/src/bem.f90:thrustTorque"]}
{"id": "C13", "title": "Prandtl factor lies between 0 and 1", "statement": "For a station strictly between hub and tip and inflow angle in (0, 180) degrees, the combined tip/hub loss factor is strictly positive and at most 1, it is 1 when both corrections are off, and the induction computation involves no division by zero or invalid acos.", "quantifier": "all radii, blade counts >= 1, inflow angles", "why_tests_cant": "continuum of real inputs; a test samples finitely many points and a sign or index slip can cancel at the sampled ones", "anchors": ["ccblade/src/bem.f90:inductionFactors"]}
{"id": "C14", "title": "Induction balances momentum and blade-element thrust", "statement": "For inflow angle > 0 the axial induction returned satisfies the momentum equation 4aF(1-a) = blade-element thrust coefficient when the loading parameter is <= 2/3, and Buhl's empirical equation CT = 8/9 + (4F-40/9)a + (50/9-4F)a^2 beyond (outside the guarded singular band); tangential induction satisfies ap/(1+ap) = kp.", "quantifier": "all section inputs for which the kernel is defined", "why_tests_cant": "continuum of real inputs; a test samples finitely many points and a sign or index slip can cancel at the sampled ones", "anchors": ["ccblade/src/bem.f90:inductionFactors"]}
{"id": "C15", "title": "Axial induction stays below 1", "statement": "For inflow angle > 0, loss factor in (0,1] and loading parameter above -1, a < 1 (so 1-a never vanishes in the residual); up to loading 2/3 it is at most 2/5, beyond it lies strictly between 2/5 and 1 and increases with loading (inside the guarded band of the Buhl formula: above 2/5 - 1e-6).", "quantifier": "all loadings and loss factors", "why_tests_cant": "continuum of real inputs; a test samples finitely many points and a sign or index slip can cancel at the sampled ones", "anchors": ["ccblade/src/bem.f90:inductionFactors"]}
{"id": "C16", "title": "Induction is continuously differentiable across the momentum/Buhl switch", "statement": "At the switch (loading 2/3) the axial induction and its first derivatives with respect to loading and loss factor agree from both sides, so results vary smoothly.", "quantifier": "all loss factors and all directions of variation", "why_tests_cant": "smoothness at a surface is measure-zero for sampling", "anchors": ["ccblade/src/bem.f90:inductionFactors"]}
{"id": "C17", "title": "The singularity guard introduces only a negligible error", "statement": "Within the guarded band of the Buhl formula the returned induction differs from the exact root by at most 1e-6, and at the centre of the band they coincide.", "quantifier": "all loadings and loss factors in the band", "why_tests_cant": "band is 1e-6 wide; sampling never enters it", "anchors": ["ccblade/src/bem.f90:inductionFactors"]}
{"id": "C18", "title": "A zero residual closes the velocity triangle", "statement": "If the residual is zero at inflow angle in (0,180) deg and wake rotation is on, then sin(phi)/(1-a) = cos(phi)/(lambda(1+ap)) and the relative wind speed W satisfies W sin(phi) = Vx(1-a), W cos(phi) = Vy(1+ap); all branches of the relative-wind routine then agree up to the sign of W.", "quantifier": "all section inputs with a zero residual", "why_tests_cant": "continuum of real inputs; a test samples finitely many points and a sign or index slip can cancel at the sampled ones", "anchors": ["ccblade/src/bem.f90:inductionFactors", "ccblade/src/bem.f90:relativeWind"]}
{"id": "C19", "title": "Model switches do exactly what they say", "statement": "usecd=False makes induction independent of drag while loads still contain drag; wakerotation=False gives ap = 0; tiploss/hubloss=False make the result independent of Rtip/Rhub; with the switches on the documented corrections apply.", "quantifier": "all section inputs, all 16 switch combinations", "why_tests_cant": "continuum of real inputs; a test samples finitely many points and a sign or index slip can cancel at the sampled ones", "anchors": ["ccblade/src/bem.f90:inductionFactors", "ccblade/ccblade.py:CCBlade.__loads"]}
{"id": "C20", "title": "The bracket handed to the root finder is one of the documented three and is sound", "statement": "At each station of a rotating blade the solver is run on (eps, 90deg), (-45deg, -eps) or (90deg, 180deg-eps); on the first unless the residual has the same strict sign at both ends, on the second only if the residual changes sign there; an accepted inflow angle lies in the chosen bracket.", "quantifier": "all stations, airfoils, inputs, and every root finder meeting brentq's contract", "why_tests_cant": "quantifies over airfoil functions", "anchors": ["ccblade/ccblade.py:CCBlade.distributedAeroLoads"]}
{"id": "C21", "title": "The propeller-brake bracket is reachable", "statement": "The documentation says solutions outside (0, 90] degrees are also considered, so for some inputs with the default options (tip and hub loss on) the bracket (-45deg,-eps) is searched.", "quantifier": "all inputs with a station strictly between hub and tip, all airfoils", "why_tests_cant": "a claim that no input whatsoever reaches a branch cannot be tested", "anchors": ["ccblade/src/bem.f90:inductionFactors", "ccblade/ccblade.py:CCBlade.distributedAeroLoads"]}
{"id": "C22", "title": "A failed solve yields zero loads, not NaN", "statement": "If the root finder rejects the bracket, then at that station a, ap, Np, Tp and alpha are all reported as 0 and the other stations are unaffected.", "quantifier": "all inputs and option combinations for which the root finder raises ValueError", "why_tests_cant": "failure inputs are rare and option dependent", "anchors": ["ccblade/ccblade.py:CCBlade.distributedAeroLoads"]}
{"id": "C23", "title": "Guaranteed solution in the standard bracket", "statement": "If the residual changes sign over (eps, 90deg), the airfoil coefficients are continuous in angle of attack and the loading stays above -1 and outside the guard band, then (iterRe = 1) a zero of the residual exists in the bracket.", "quantifier": "all continuous airfoil functions and section inputs", "why_tests_cant": "existence for all continuous functions", "anchors": ["ccblade/src/bem.f90:inductionFactors", "ccblade/ccblade.py:CCBlade.distributedAeroLoads"]}
{"id": "C24", "title": "Zero wind component means zero loads", "statement": "If Vx = 0 or Vy = 0 at a station all returned quantities at that station are exactly 0.", "quantifier": "all inputs", "why_tests_cant": "continuum of real inputs; a test samples finitely many points and a sign or index slip can cancel at the sampled ones", "anchors": ["ccblade/ccblade.py:CCBlade.__loads"]}
{"id": "C25", "title": "Section loads are lift and drag resolved through the inflow angle", "statement": "Np = q c (Cl cos phi + Cd sin phi), Tp = q c (Cl sin phi - Cd cos phi) with q = rho W^2/2; hence Np^2+Tp^2 = (q c)^2 (Cl^2+Cd^2), and Np sin phi - Tp cos phi = q c Cd; drag always enters even with usecd=False.", "quantifier": "all section inputs", "why_tests_cant": "continuum of real inputs; a test samples finitely many points and a sign or index slip can cancel at the sampled ones", "anchors": ["ccblade/ccblade.py:CCBlade.__loads"]}
{"id": "C26", "title": "evaluate treats conditions independently and forgets history", "statement": "In normal (not inverse) mode, the i-th entry of every output of evaluate except W depends only on the i-th condition: evaluating a list equals evaluating each condition on its own; and the result of any call is independent of every sequence of earlier evaluate/distributedAeroLoads calls on the same object.", "quantifier": "all lists of conditions, all call histories", "why_tests_cant": "all histories", "anchors": ["ccblade/ccblade.py:CCBlade.evaluate", "ccblade/ccblade.py:CCBlade.distributedAeroLoads"]}
{"id": "C27", "title": "Power and coefficients are consistent", "statement": "P = Q*Omega*pi/30, CP*q*A*U = P, CT*q*A = T, CQ*q*A*R = Q (same for CY, CZ, CMy, CMz, CMb) with R = Rtip cos(precone) + precurveTip sin(precone); and CP = CQ * tip-speed-ratio.", "quantifier": "all inputs with non-zero wind speed, density and rotor radius", "why_tests_cant": "continuum of real inputs; a test samples finitely many points and a sign or index slip can cancel at the sampled ones", "anchors": ["ccblade/ccblade.py:CCBlade.evaluate"]}
{"id": "C28", "title": "Sector count does not matter for axisymmetric inflow: thrust, torque, power, flap moment", "statement": "With tilt = yaw = shear = 0 thrust, torque, power and blade root flap moment are the same for every number of azimuthal sectors.", "quantifier": "all blades and all sector counts >= 1", "why_tests_cant": "all sector counts", "anchors": ["ccblade/ccblade.py:CCBlade.evaluate", "ccblade/ccblade.py:CCBlade.__init__"]}
{"id": "C29", "title": "Sector count does not matter for axisymmetric inflow: hub side forces and moments", "statement": "With tilt = yaw = shear = 0 the side force, vertical force and hub moments My, Mz are the same for every number of azimuthal sectors (and zero, by symmetry of a rotor with more than one blade).", "quantifier": "all blades and all sector counts", "why_tests_cant": "needs the trigonometric identity for all counts; the single-sector shortcut is never compared", "anchors": ["ccblade/ccblade.py:CCBlade.evaluate", "ccblade/ccblade.py:CCBlade.__init__"]}
{"id": "C30", "title": "Sector rule", "statement": "The constructor uses exactly 1 sector iff tilt = yaw = shearExp = 0 and otherwise max(4, nSector).", "quantifier": "all constructor arguments", "why_tests_cant": "all arguments", "anchors": ["ccblade/ccblade.py:CCBlade.__init__"]}
{"id": "C31", "title": "Stations never coincide with hub or tip", "statement": "For increasing r (at least 2 stations) with Rhub <= r[0] and r[-1] <= Rtip, after construction Rhub < r[0] < ... < r[-1] < Rtip strictly, interior stations are untouched and only an end station coinciding with hub/tip is moved.", "quantifier": "all station lists of any length", "why_tests_cant": "continuum of real inputs; a test samples finitely many points and a sign or index slip can cancel at the sampled ones", "anchors": ["ccblade/ccblade.py:CCBlade.__init__"]}
{"id": "C32", "title": "Precurve and presweep of a station move only with the station", "statement": "If the last station does not coincide with the tip, the precurve and presweep values used are the ones the user gave.", "quantifier": "all blades", "why_tests_cant": "continuum of real inputs; a test samples finitely many points and a sign or index slip can cancel at the sampled ones", "anchors": ["ccblade/ccblade.py:CCBlade.__init__"]}
{"id": "C33", "title": "Relative-wind derivatives are exact", "statement": "relativewind_dv returns the exact directional derivatives of angle of attack, W and Re for any number of directions, wherever the routine stays in one branch; where W = 0 it reports zero for W and Re.", "quantifier": "all inputs and all directions", "why_tests_cant": "derivative identity over a continuum", "anchors": ["ccblade/src/bem.f90:RELATIVEWIND_DV"]}
{"id": "C34", "title": "Induction-factor derivatives are exact", "statement": "inductionfactors_dv returns the same fzero, a, ap as inductionfactors and the exact directional derivatives with respect to r, chord, Rhub, Rtip, phi, cl, cd, Vx, Vy, for all switch combinations, away from branch boundaries; including at loading 2/3.", "quantifier": "all inputs, all directions, all switches", "why_tests_cant": "derivative identity over a continuum", "anchors": ["ccblade/src/bem.f90:INDUCTIONFACTORS_DV"]}
{"id": "C35", "title": "Curvature and wind-component derivatives are exact", "statement": "definecurvature_dv, definecurvature_dv2 and windcomponents_dv return the exact directional derivatives of all their outputs with respect to every input, for any number of stations.", "quantifier": "all inputs, directions, station counts", "why_tests_cant": "derivative identity over a continuum", "anchors": ["ccblade/src/bem.f90:WINDCOMPONENTS_DV", "ccblade/src/bem.f90:DEFINECURVATURE_DV", "ccblade/src/bem.f90:DEFINECURVATURE_DV2"]}
{"id": "C36", "title": "Thrust/torque adjoint is the exact gradient", "statement": "For every seed (Tb,Yb,Zb,Qb,Mb) and every direction of change of all inputs, the inner product of thrusttorque_bv's outputs with the direction equals the derivative of the seeded combination of thrust, side, vertical force, torque and moment.", "quantifier": "all inputs, seeds, directions, station counts", "why_tests_cant": "derivative identity over a continuum", "anchors": ["ccblade/src/bem.f90:THRUSTTORQUE_BV", "ccblade/src/bem.f90:DEFINECURVATURE_BV"]}
{"id": "C37", "title": "Total derivatives use the implicit function theorem correctly", "statement": "If the inflow angle is a differentiable function of the design variable that keeps the residual zero and dR/dphi is non-zero, the derivative reported as dN/dx - (dN/dphi)/(dR/dphi) dR/dx is the derivative of the load along the solution.", "quantifier": "all differentiable load and residual functions", "why_tests_cant": "quantifies over functions", "anchors": ["ccblade/ccblade.py:CCBlade.distributedAeroLoads"]}
{"id": "C38", "title": "Section load derivatives are exact for Reynolds-independent airfoils", "statement": "For airfoils whose coefficients do not depend on Reynolds number, the partial derivatives of Np and Tp with respect to inflow angle, chord, twist, Vx, Vy, r, Rhub, Rtip, pitch used inside distributedAeroLoads are exact whenever Cn, Ct, W and chord are non-zero.", "quantifier": "all section inputs, all differentiable airfoils", "why_tests_cant": "derivative identity over a continuum", "anchors": ["ccblade/ccblade.py:CCBlade.__loads", "ccblade/ccblade.py:CCBlade.__residualDerivatives"]}
{"id": "C39", "title": "Load derivatives for Reynolds-dependent airfoils", "statement": "The same derivatives are exact for airfoils whose coefficients depend on Reynolds number (iterRe = 1).", "quantifier": "all section inputs, all differentiable airfoils", "why_tests_cant": "bug hides when dcl/dRe is small, as in the shipped airfoils (one Reynolds number)", "anchors": ["ccblade/ccblade.py:CCBlade.__loads", "ccblade/ccblade.py:CCBlade.__runBEM"]}
{"id": "C40", "title": "Jacobian with respect to r is diagonal", "statement": "The documentation says dNp/dr is diagonal: Vx and Vy at one station do not depend on r of another station.", "quantifier": "all blades", "why_tests_cant": "continuum of real inputs; a test samples finitely many points and a sign or index slip can cancel at the sampled ones; tests use straight blades", "anchors": ["ccblade/ccblade.py:CCBlade.__windComponents"]}
{"id": "C41", "title": "Derivatives are refused when not supplied", "statement": "Asking for derivatives with iterRe != 1, documented as not implemented, raises an error instead of returning wrong gradients.", "quantifier": "all inputs with iterRe >= 2", "why_tests_cant": "needs an absence-of-silent-result claim for all inputs", "anchors": ["ccblade/ccblade.py:CCBlade.__residualDerivatives"]}
{"id": "C42", "title": "Inverse analysis reproduces the requested angle of attack", "statement": "In inverse mode the twist returned makes the angle of attack at every station equal the requested one, and the forward residual at the same inflow angle equals the inverse residual when the requested Cl, Cd are the airfoil's values.", "quantifier": "all stations, inputs and target distributions", "why_tests_cant": "continuum of real inputs; a test samples finitely many points and a sign or index slip can cancel at the sampled ones", "anchors": ["ccblade/ccblade.py:CCBlade.distributedAeroLoads", "ccblade/ccblade.py:CCBlade.__errorFunction_inverse"]}
{"id": "C43", "title": "Blended polars are well formed", "statement": "Polar.blend of two polars with increasing angles returns strictly increasing angles, all inside the overlap of both ranges, containing every angle of either polar in the overlap, with one coefficient per angle.", "quantifier": "all pairs of polars of any length", "why_tests_cant": "any lengths and values", "anchors": ["ccblade/airfoilprep.py:Polar.blend"]}
{"id": "C44", "title": "Blend weights mean what they say", "statement": "At every angle of the blended polar the coefficient is (1-w)*self + w*other (linear interpolation of each); w=0 gives self's values and w=1 other's, blending with itself returns itself, swapping the operands and using 1-w gives the same polar, and for 0<=w<=1 the result lies between the two.", "quantifier": "all pairs of polars, all weights", "why_tests_cant": "any lengths and values", "anchors": ["ccblade/airfoilprep.py:Polar.blend"]}
{"id": "C45", "title": "Polars are kept sorted and lookup clamps", "statement": "Airfoil keeps its polars sorted by Reynolds number and loses none; getPolar at or below the lowest (above the highest) Reynolds number returns that polar; in between it returns a polar at exactly the requested Reynolds number with blend weight strictly in (0,1], never dividing by zero even with duplicate Reynolds numbers.", "quantifier": "all polar lists and all Reynolds numbers", "why_tests_cant": "any lengths and values", "anchors": ["ccblade/airfoilprep.py:Airfoil.__init__", "ccblade/airfoilprep.py:Airfoil.getPolar"]}
{"id": "C46", "title": "getPolar is exact at stored Reynolds numbers", "statement": "If all polars share the same angle grid and Reynolds numbers are distinct, getPolar at a stored Reynolds number returns that polar's data.", "quantifier": "all airfoils and stored Reynolds numbers", "why_tests_cant": "any lengths and values", "anchors": ["ccblade/airfoilprep.py:Airfoil.getPolar"]}
{"id": "C47", "title": "Airfoil.blend covers the union of Reynolds numbers", "statement": "Airfoil.blend returns one polar per distinct Reynolds number of either airfoil, sorted; over the common Reynolds range each blended polar sits at that Reynolds number whatever the weight.", "quantifier": "all pairs of airfoils, all weights", "why_tests_cant": "any lengths and values", "anchors": ["ccblade/airfoilprep.py:Airfoil.blend"]}
{"id": "C48", "title": "interpToCommonAlpha keeps data and unifies the grid", "statement": "All returned polars share one strictly increasing grid equal to the union of all angles, each keeps its own values at its own angles, and repeating the operation changes nothing.", "quantifier": "all airfoils", "why_tests_cant": "any lengths and values", "anchors": ["ccblade/airfoilprep.py:Airfoil.interpToCommonAlpha"]}
{"id": "C49", "title": "createDataGrid indexing", "statement": "createDataGrid returns rectangular arrays with cl[i][j] the value of polar j at angle i (same for cd, cm), Re sorted.", "quantifier": "all airfoils", "why_tests_cant": "any lengths and values", "anchors": ["ccblade/airfoilprep.py:Airfoil.createDataGrid"]}
{"id": "C50", "title": "Extrapolation spans -180..180, keeps the data and bounds drag", "statement": "Polar.extrapolate returns a polar whose angles start at -180 and end at 180, which contains the input angles, lift and (floored) drag as a contiguous block, and whose drag is >= cdmin everywhere; it raises if the data extend beyond 90 degrees or cdmin < 0.", "quantifier": "all polars, cdmax, AR, cdmin, nalpha >= 2", "why_tests_cant": "any lengths and values", "anchors": ["ccblade/airfoilprep.py:Polar.extrapolate"]}
{"id": "C51", "title": "Extrapolated angles are strictly increasing", "statement": "For data with 0 < alpha[-1] < 90 the extrapolated angles of attack are strictly increasing (needed by the spline that consumes them).", "quantifier": "all polars", "why_tests_cant": "continuum of real inputs; a test samples finitely many points and a sign or index slip can cancel at the sampled ones", "anchors": ["ccblade/airfoilprep.py:Polar.extrapolate"]}
{"id": "C52", "title": "Extrapolation is continuous at the ends of the data", "statement": "The Viterna lift and drag at the last data angle equal the data, and the extrapolated moment coefficient just outside the data tends to the data's end value.", "quantifier": "all polars", "why_tests_cant": "limit statement", "anchors": ["ccblade/airfoilprep.py:Polar.__Viterna", "ccblade/airfoilprep.py:Polar.extrapolate"]}
{"id": "C53", "title": "3-D correction leaves what it should alone", "statement": "correction3D keeps Re, angles and moment; leaves lift unchanged at angles where the 2-D lift lies on the fitted line; leaves drag unchanged at zero angle; reduces to full correction (factor 1) at or below alpha_max_corr and to no lift correction at 90 degrees.", "quantifier": "all polars and parameters", "why_tests_cant": "any lengths and values", "anchors": ["ccblade/airfoilprep.py:Polar.correction3D"]}
{"id": "C54", "title": "AeroDyn files: reading terminates and recovers what a well-formed file contains", "statement": "Reading any text terminates with polars or an exception; a well-formed file with n tables yields exactly those tables (Reynolds number times 1e6, all rows, in order, then sorted by Re); a data row with fewer than 4 numbers or a missing EOT raises.", "quantifier": "all texts / all table lists", "why_tests_cant": "all texts", "anchors": ["ccblade/airfoilprep.py:Airfoil.initFromAerodynFile"]}
{"id": "C55", "title": "What is written can be read back", "statement": "initFromAerodynFile applied to a file produced by writeToAerodynFile succeeds.", "quantifier": "all airfoils", "why_tests_cant": "all airfoils", "anchors": ["ccblade/airfoilprep.py:Airfoil.writeToAerodynFile", "ccblade/airfoilprep.py:Airfoil.initFromAerodynFile"]}
{"id": "C56", "title": "Rotor geometry component", "statement": "CCBladeGeometry: precurveTip/presweepTip are the last entries, R = Rtip cos(precone) + precurveTip sin(precone), diameter = 2R, the partials are the exact derivatives, and R equals the radius CCBlade uses for its coefficients.", "quantifier": "all inputs", "why_tests_cant": "continuum of real inputs; a test samples finitely many points and a sign or index slip can cancel at the sampled ones", "anchors": ["ccblade/ccblade_component.py:CCBladeGeometry"]}
{"id": "C57", "title": "Lift and drag outputs of the twist component", "statement": "CCBladeTwist's LiftF and DragF equal q*c*Cl and q*c*Cd at each station, and airfoil-frame loads have the same magnitude as blade-frame loads.", "quantifier": "all stations", "why_tests_cant": "continuum of real inputs; a test samples finitely many points and a sign or index slip can cancel at the sampled ones", "anchors": ["ccblade/ccblade_component.py:CCBladeTwist.compute"]}
{"id": "C58", "title": "Root twist cap", "statement": "After inverse design no station's twist exceeds 20 degrees, stations outboard of the outermost violating station are untouched, and a profile with no violation is unchanged.", "quantifier": "all twist profiles of any length", "why_tests_cant": "any lengths and values", "anchors": ["ccblade/ccblade_component.py:CCBladeTwist.compute"]}
{"id": "C59", "title": "Load component signs and partials", "statement": "CCBladeLoads returns Px = Np, Py = -Tp, Pz = 0 and its partials are those of the most recent compute call with the same sign convention.", "quantifier": "all inputs and call histories", "why_tests_cant": "all histories", "anchors": ["ccblade/ccblade_component.py:CCBladeLoads"]}
{"id": "C60", "title": "Evaluate component reports correct partials for every declared input", "statement": "CCBladeEvaluate declares partials of all outputs with respect to all inputs; each reported partial is the true derivative, including with respect to air density.", "quantifier": "all inputs", "why_tests_cant": "absent assignments are invisible to tests of assigned ones", "anchors": ["ccblade/ccblade_component.py:CCBladeEvaluate.setup", "ccblade/ccblade_component.py:CCBladeEvaluate.compute_partials"]}
{"id": "C61", "title": "Linear interpolation primitive used everywhere", "statement": "Interpolating tabulated data (as used in blending, grids, curvature end points) returns table values at table points, is clamped outside, monotone tables give monotone results, and values stay within the table's bounds.", "quantifier": "all tables with increasing abscissae of any length", "why_tests_cant": "any lengths and values", "anchors": ["ccblade/airfoilprep.py:Polar.blend", "ccblade/ccblade.py:CCBlade.__init__"]}
{"id": "C62", "title": "Best-efficiency and stall search", "statement": "CCAirfoil.max_eff returns the angle on its 201-point scan from -20 to 40 degrees with maximal lift-to-drag ratio together with the coefficients at that same angle; awayfromstall returns exactly margin degrees below the scan's lift maximum; both use 0 for a cylinder.", "quantifier": "all airfoil functions and Reynolds numbers", "why_tests_cant": "quantifies over functions", "anchors": ["ccblade/ccblade.py:CCAirfoil.max_eff", "ccblade/ccblade.py:CCAirfoil.awayfromstall"]}
{"id": "C63", "title": "Unsteady parameters can be computed for every polar", "statement": "CCAirfoil.eval_unsteady succeeds for every polar with non-constant moment coefficient.", "quantifier": "all polars", "why_tests_cant": "all polars", "anchors": ["ccblade/ccblade.py:CCAirfoil.eval_unsteady"]}
{"id": "C64", "title": "Packing of gradients", "statement": "Each row of the gradient dictionaries is the gradient with respect to the variable it is named after, and angles (twist, precone, tilt, yaw, azimuth, pitch) - and only they - are converted to per-degree.", "quantifier": "all gradient matrices, any number of stations", "why_tests_cant": "index permutations; any size", "anchors": ["ccblade/ccblade.py:CCBlade.distributedAeroLoads", "ccblade/ccblade.py:CCBlade.__thrustTorqueDeriv", "ccblade/ccblade.py:CCBlade.__thrustTorqueDictionary"]}
{"id": "C65", "title": "Power and coefficient gradients follow from torque gradients", "statement": "dP = dQ*Omega*pi/30 (+ Q*pi/30 for Omega), and the reported dCT, dCQ, dCP, ... are the exact derivatives of the coefficients by the quotient rule.", "quantifier": "all inputs with non-zero T, Q, ..., all directions", "why_tests_cant": "continuum of real inputs; a test samples finitely many points and a sign or index slip can cancel at the sampled ones", "anchors": ["ccblade/ccblade.py:CCBlade.evaluate"]}
{"id": "C66", "title": "Conversions rotate about the documented axis in the documented sense", "statement": "Each DirectionVector conversion returns the components of the vector in the frame rotated by the given angle about the documented axis: beta and Psi about +z, Theta about +y, Lambda about +x, Phi about -y, twist about -z; the reverse conversion by minus the angle.", "quantifier": "all vectors, all angles, all twelve conversions", "why_tests_cant": "a continuum of vectors and angles; sign errors vanish at the usual test angles", "anchors": ["ccblade/csystem.py:DirectionVector", "docs/csystem.rst"]}
{"id": "C67", "title": "Total cone angle is the mean of adjacent segment inclinations", "statement": "The total cone angle used at an end station is the inclination of the adjacent blade segment in the azimuth plane, and at an interior station the mean of the inclinations of the two adjacent segments.", "quantifier": "all blade shapes of any number (>= 2) of distinct stations, all precone angles", "why_tests_cant": "A test compares a few blades; the statement must hold for every shape, including segments pointing backwards, where atan2 branches matter.", "anchors": ["ccblade/src/bem.f90:defineCurvature"]}
{"id": "C68", "title": "Weight 0 returns self", "statement": "Polar.blend(other, 0) returns self (docstring), and blending never drops data.", "quantifier": "all pairs of polars", "why_tests_cant": "a test with equal angle grids passes; the loss only shows when the ranges differ", "anchors": ["ccblade/airfoilprep.py:Polar.blend"]}
{"id": "C69", "title": "Blended airfoils have distinct Reynolds numbers", "statement": "If both airfoils have distinct Reynolds numbers, so has Airfoil.blend(other, w) for every weight in [0,1].", "quantifier": "all pairs of airfoils, all weights in [0,1]", "why_tests_cant": "needs Reynolds ranges that do not coincide and an extreme weight", "anchors": ["ccblade/airfoilprep.py:Airfoil.blend"]}
{"id": "C70", "title": "Unsteady parameters are consistent and in the stated units", "statement": "Polar.unsteadyparam returns, besides zero control setting: the fitted normal-force slope, the angle where the fitted line vanishes (deg), a stall angle (deg) with the line's normal force there, the smallest drag of the polar, and the angle (deg, as writeToAerodynFile labels it) at which that drag occurs.", "quantifier": "all polars with at least ten rows and ten distinct lift values, all line fits", "why_tests_cant": "the angle of minimum drag is often near zero, where degrees and radians are hard to tell apart", "anchors": ["ccblade/airfoilprep.py:Polar.unsteadyparam", "ccblade/airfoilprep.py:Airfoil.writeToAerodynFile"]}
{"id": "C71", "title": "Unsuitable data give zero unsteady parameters", "statement": "Polar.unsteadyparam returns eight zeros for data unsuitable for a linear fit: fewer than ten points in the linear range or fewer than ten distinct lift values (cylinders).", "quantifier": "all polars", "why_tests_cant": "needs polars whose rows lie outside the linear range", "anchors": ["ccblade/airfoilprep.py:Polar.unsteadyparam"]}
{"id": "C72", "title": "Evaluate partials with respect to yaw at axisymmetric inflow", "statement": "At zero yaw, tilt and shear CCBladeEvaluate reports partials with respect to yaw that are the derivatives of its outputs.", "quantifier": "all inputs with zero yaw, tilt and shear", "why_tests_cant": "finite differences at one point give a large number rather than an error; whether a derivative exists at all is not something a test decides", "anchors": ["ccblade/ccblade_component.py:CCBladeEvaluate.compute_partials", "ccblade/ccblade.py:CCBlade.__init__"]}
{"id": "C73", "title": "Load partials with respect to hub radius when the first station is at the hub", "statement": "CCBladeLoads' partials with respect to Rhub are the derivatives of its outputs also when r[0] = Rhub.", "quantifier": "all inputs with r[0] = Rhub", "why_tests_cant": "existence of a derivative concerns all nearby inputs", "anchors": ["ccblade/ccblade_component.py:CCBladeLoads.compute_partials", "ccblade/ccblade.py:CCBlade.__init__"]}
{"id": "C74", "title": "Twist component reports power, thrust, torque and moment", "statement": "After CCBladeTwist.compute the declared outputs P, T, Q, M hold the rotor totals of the evaluated blade.", "quantifier": "all inputs", "why_tests_cant": "absent assignments are invisible to tests of assigned ones", "anchors": ["ccblade/ccblade_component.py:CCBladeTwist.setup", "ccblade/ccblade_component.py:CCBladeTwist.compute"]}
{"id": "C75", "title": "Reynolds number of the design point", "statement": "Inverse design in CCBladeTwist takes each station's design lift and drag coefficients from its airfoil at its design angle and at the Reynolds number rho*v*c/mu of its rotational speed v.", "quantifier": "all inputs", "why_tests_cant": "with tables at one Reynolds number the error cannot show", "anchors": ["ccblade/ccblade_component.py:CCBladeTwist.compute"]}
{"id": "C76", "title": "Tip-speed ratio of the twist component", "statement": "CCBladeTwist evaluates the rotor at the rotation speed for which the blade tip (Rtip) moves at tsr*Uhub.", "quantifier": "all inputs", "why_tests_cant": "tests whose last station is the tip cannot tell", "anchors": ["ccblade/ccblade_component.py:CCBladeTwist.compute"]}
{"id": "C77", "title": "Design angle and coefficients agree at every station", "statement": "Inverse design uses at every station lift and drag coefficients that belong to the design angle of attack used there.", "quantifier": "all inputs, all thickness distributions", "why_tests_cant": "needs thick root sections with different design angles", "anchors": ["ccblade/ccblade_component.py:CCBladeTwist.compute"]}
{"id": "C78", "title": "Airfoil construction", "statement": "CCAirfoil raises ValueError for fewer than two angles and accepts every grid of the documented shape (including none or one Reynolds number, with or without moment data); data given for at most one Reynolds number evaluate independently of the Reynolds number and report zero Reynolds derivatives.", "quantifier": "all tables", "why_tests_cant": "all tables and Reynolds numbers", "anchors": ["ccblade/ccblade.py:CCAirfoil.__init__", "ccblade/ccblade.py:CCAirfoil.derivatives"]}
{"id": "C79", "title": "Airfoil derivatives match evaluation", "statement": "CCAirfoil.derivatives returns the partial derivatives of CCAirfoil.evaluate with respect to angle and Reynolds number whenever the spline library returns those of its splines; if the library raises for a Reynolds derivative both are reported as zero.", "quantifier": "all airfoils, angles, Reynolds numbers", "why_tests_cant": "derivatives are limits", "anchors": ["ccblade/ccblade.py:CCAirfoil.derivatives", "ccblade/ccblade.py:CCAirfoil.evaluate"]}
{"id": "C80", "title": "Meaning of the unsteady parameters", "statement": "When CCAirfoil.eval_unsteady returns, alpha0, Cd0, Cm0 come from the zero-lift interpolation (or the constant-lift defaults), Cn1 and Cn2 are normal force coefficients at the moment curve's break points, C_nalpha is the largest slope between zero-lift row and break point, alpha1 is the drag break point, alpha2 = -alpha1, the tables are stored unchanged, and a polar of constant moment gets zeros.", "quantifier": "all polars with increasing angles", "why_tests_cant": "all polars", "anchors": ["ccblade/ccblade.py:CCAirfoil.eval_unsteady"]}
{"id": "C81", "title": "Vector arithmetic of DirectionVector", "statement": "DirectionVector's operators (-, +, -, *, / and the in-place forms), with another DirectionVector or a number, act component by component; in-place forms give the same components and keep the stored derivatives; every chain of coordinate conversions is linear (commutes with sums, differences, negation and scaling).", "quantifier": "all vectors, operands and chains", "why_tests_cant": "all vectors and all chains", "anchors": ["ccblade/csystem.py:DirectionVector.__add__", "ccblade/csystem.py:DirectionVector.__iadd__", "ccblade/csystem.py:DirectionVector.__truediv__"]}
{"id": "C82", "title": "Declared partials of the components are what is written, and cover what the outputs depend on", "statement": "CCBladeGeometry, CCBladeLoads and CCBladeEvaluate write J only at (output, input) pairs their setup declares dependent and without a constant value. Geometry and Loads write every such pair; Evaluate leaves out exactly rho and mu for every output. An output of Geometry, and of Loads at fixed airfoils, density, viscosity and discrete inputs, does not change when only inputs not declared for it change (in particular precurveTip has no effect on the loads). The excepted density does matter: with polars independent of Reynolds number the loads are proportional to it.", "quantifier": "All inputs on which the components succeed; for Loads the constructor moves no station", "why_tests_cant": "A finite-difference check compares the partials at a few points, and only pairs that are declared", "anchors": ["ccblade/ccblade_component.py:CCBladeGeometry.setup", "ccblade/ccblade_component.py:CCBladeLoads.setup", "ccblade/ccblade_component.py:CCBladeLoads.compute_partials", "ccblade/ccblade_component.py:CCBladeEvaluate.setup", "ccblade/ccblade_component.py:CCBladeEvaluate.compute_partials"]}
{"id": "C83", "title": "Similar rotors have similar loads", "statement": "If all lengths, speeds, the density and the viscosity given to CCBlade are multiplied by positive factors (rotor speed by speed/length) and the Reynolds number is kept, or the airfoils ignore it, then both rotors raise the same exceptions or both succeed; induction factors, angles and coefficients of every section and all rotor coefficients are the same, loads per span scale with density*speed^2*length, forces with length^2, moments with length^3, power with length^2*speed^3.", "quantifier": "all rotors, conditions, positive factors", "why_tests_cant": "a one-parameter family of rotors for every rotor", "anchors": ["ccblade/ccblade.py:CCBlade.evaluate", "ccblade/ccblade.py:CCBlade.distributedAeroLoads"]}
{"id": "C84", "title": "Rotor totals are B times the azimuthal mean in the hub frame", "statement": "evaluate returns (T,Y,Z) and (Q,My,Mz) equal to the number of blades times the mean, over nSector equally spaced azimuths starting at 0, of one blade's force and moment from distributedAeroLoads converted by csystem's azimuthToHub; Mb is the mean flapwise moment of one blade.", "quantifier": "all rotors, conditions, sector counts", "why_tests_cant": "all sector counts and rotors", "anchors": ["ccblade/ccblade.py:CCBlade.evaluate", "ccblade/csystem.py:DirectionVector.azimuthToHub"]}
{"id": "C85", "title": "Collective pitch is uniform twist", "statement": "A rotor whose twists are all increased by d degrees gives, at pitch p, exactly the section loads, outputs and exceptions that the original rotor gives at pitch p+d.", "quantifier": "all rotors, conditions, d", "why_tests_cant": "all rotors and angles", "anchors": ["ccblade/ccblade.py:CCBlade.evaluate", "ccblade/ccblade.py:CCBlade.distributedAeroLoads"]}
{"id": "C86", "title": "Turning the azimuth", "statement": "Azimuths that differ by 360 degrees give the same call of distributedAeroLoads. Without shear, reversing yaw and tilt gives the section loads half a turn later; with an even number of sectors evaluate then returns the same T, Q, P, Mb and the opposite Y, Z, My, Mz (and coefficients).", "quantifier": "all rotors, conditions, azimuths", "why_tests_cant": "all azimuths and yaw/tilt angles", "anchors": ["ccblade/ccblade.py:CCBlade.evaluate", "ccblade/src/bem.f90:windComponents"]}
{"id": "C87", "title": "Parked rotor loads", "statement": "With Omega = 0, distributedAeroLoads takes the inflow angle of every section as 90 degrees without induction: where both wind components are non-zero the angle of attack is 90 degrees minus twist and pitch, W^2 = Vx^2 + Vy^2, lift and drag are those of the airfoil there, and Np, Tp follow from them; no root is sought. In inverse mode the stored twist puts the section at its design angle of attack.", "quantifier": "all rotors, wind speeds, pitch and azimuth angles", "why_tests_cant": "Tests run rotating conditions; the branch is a different formula", "anchors": ["ccblade/ccblade.py:CCBlade.distributedAeroLoads", "ccblade/ccblade.py:CCBlade.__loads"]}
{"id": "C88", "title": "A parked rotor feels the drag of a wind from ahead", "statement": "With Omega = 0 every section carries the loads of C87 whatever the wind direction; so the loads of a parked rotor vary continuously with yaw.", "quantifier": "all rotors, wind speeds, pitch and azimuth angles", "why_tests_cant": "The exception is a single yaw angle (zero), where the tangential wind component vanishes", "anchors": ["ccblade/ccblade.py:CCBlade.__loads"]}
{"id": "C89", "title": "Only the place of the blade matters for wind, parked loads and totals", "statement": "Two rotors whose stations are at the same points of the azimuth frame, whatever share precone, precurve and r have in that, see the same wind at every station and have the same loads when parked; for given section loads, and root and tip at the same points, hub force and moment agree; the rotor radius is the distance of the tip from the axis in the blade plane.", "quantifier": "all pairs of rotors with equal station places, all operating conditions, all section loads", "why_tests_cant": "Relates two differently described rotors for all shapes", "anchors": ["ccblade/src/bem.f90:defineCurvature", "ccblade/src/bem.f90:windComponents", "ccblade/src/bem.f90:thrustTorque", "ccblade/ccblade.py:CCBlade.__init__"]}
{"id": "C90", "title": "Coning can be written as precurve", "statement": "There is no loss of generality in defining the blade shape with precone = 0 (docs/tutorial.rst, Precurve): the rotor with the cone moved into precurve has the section loads of the original one, and some hub radius gives it the same integrated loads.", "quantifier": "all rotors, operating conditions and root finders meeting their contract", "why_tests_cant": "Needs the comparison of exact solutions of two rotors, and of all hub radii", "anchors": ["docs/tutorial.rst:Precurve", "ccblade/ccblade.py:CCBlade.__runBEM", "ccblade/src/bem.f90:thrustTorque"]}
{"id": "C91", "title": "A vector written to an array is read back from it", "statement": "DirectionVector.fromArray(v.toArray()) is v, and DirectionVector.fromArray(a).toArray() is a. [Refuted: toArray always gives a two-dimensional array with one row per direction, fromArray takes rows as components; so the round trip of a vector of numbers raises an IndexError, that of three or more directions returns the first three directions as x, y, z.]", "quantifier": "for all vectors (components numbers or one-dimensional arrays) and all arrays", "why_tests_cant": "The two functions are never called in the code base nor in its tests; a test with one symmetric set of three directions passes.", "anchors": ["ccblade/csystem.py:DirectionVector.fromArray", "ccblade/csystem.py:DirectionVector.toArray"]}
{"id": "C92", "title": "Moment coefficient beyond the data", "statement": "Polar.extrapolate gives, outside the data, a moment coefficient that runs linearly between its values at the multiples of ten degrees: there it is the moment at zero lift minus the normal force times an arm that equals the data's arm at the last data angle and moves to the quarter chord with the cotangent of the angle (mirrored for negative angles), -0.5 at 170, 0.4 at -170 and 0 at +-180 degrees; from the end of the data to the next multiple of ten it runs linearly from the data's moment. Without moments in the data all are 0.", "quantifier": "for all polars between -90 and 90 degrees with a last angle in (0, 90), any cdmax, AR, cdmin >= 0 and number of points >= 2", "why_tests_cant": "The tests compare the extrapolation of one airfoil with stored numbers; the law at all angles and for all data cannot be sampled.", "anchors": ["ccblade/airfoilprep.py:Polar.extrapolate", "ccblade/airfoilprep.py:Polar.__CMCoeff", "ccblade/airfoilprep.py:Polar.__getCM"]}
{"id": "C93", "title": "Outputs of the twist component", "statement": "CCBladeTwist.compute writes CP and CM from evaluate's azimuthally averaged coefficients, the local velocities of evaluate with NaN replaced by 0 and nothing else changed, the inductions, angle of attack and coefficients of distributedAeroLoads at azimuth 0, zero spanwise loads in the blade and airfoil frames, and cl, cd, lift and drag at the points of s_opt_theta as the values there of the polygon through the station values over the span fraction (r - r[0]) / (r[-1] - r[0]).", "quantifier": "for all inputs, options and previous outputs for which compute returns; finite station values for the resampled outputs", "why_tests_cant": "The tests never run the OpenMDAO components; swapped outputs or a wrong resampling grid give plausible numbers.", "anchors": ["ccblade/ccblade_component.py:CCBladeTwist.compute"]}
{"id": "C94", "title": "Arrays of the wrong length in a rotor", "statement": "CCBlade(...) raises IndexError for an empty precurve (or presweep) and ValueError for one whose length is not that of r and whose last element equals precurveTip (presweepTip); every other wrong length is accepted and then each call of distributedAeroLoads, and of evaluate with at least one condition, raises an exception. With fewer chord, theta or af entries than r, no call of distributedAeroLoads or evaluate returns, and for a turning rotor it is an IndexError.", "quantifier": "for all blades, winds, conditions and options; the last claim for root finders that raise nothing but ValueError and iterRe >= 1", "why_tests_cant": "The tests use only arrays of matching lengths.", "anchors": ["ccblade/ccblade.py:CCBlade.__init__", "ccblade/ccblade.py:CCBlade.distributedAeroLoads"]}
{"id": "C95", "title": "Unusable polar data", "statement": "Polar.blend returns a polar exactly when both polars have at least one angle and one cl, cd, cm per angle (whatever the order of the angles), and raises ValueError otherwise; Airfoil.interpToCommonAlpha does the same for all polars of the airfoil, with or without a given grid, and createDataGrid raises ValueError if one polar is unusable. Polar.extrapolate raises ValueError without drag data, IndexError without angles, and IndexError for a single row within 90 degrees with a non-zero moment.", "quantifier": "for all polars, weights and airfoils; cdmin >= 0 for extrapolate", "why_tests_cant": "The tests use only complete polar tables.", "anchors": ["ccblade/airfoilprep.py:Polar.blend", "ccblade/airfoilprep.py:Polar.extrapolate", "ccblade/airfoilprep.py:Airfoil.interpToCommonAlpha", "ccblade/airfoilprep.py:Airfoil.createDataGrid"]}
{"id": "C96", "title": "Text of the written AeroDyn file", "statement": "Airfoil.writeToAerodynFile writes, one after the other without separators, three heading lines, the number of tables, and for each polar (on the common angles) its Reynolds number in millions, the eight values of unsteadyparam each with its own label, one line alpha, cl, cd, cm per angle and EOT. If each of these lines ended in a newline, initFromAerodynFile would give back exactly these polars in this order with the numbers as rounded by the format. If unsteadyparam fails for a polar, the exception of the first such polar is raised.", "quantifier": "for all airfoils with fitting columns, increasing angles, sorted Reynolds numbers and an angle in [-5, 5]; for all number formats that print a monotonically rounded value as one word and all readers that understand them", "why_tests_cant": "No test writes an AeroDyn file.", "anchors": ["ccblade/airfoilprep.py:Airfoil.writeToAerodynFile", "ccblade/airfoilprep.py:Airfoil.initFromAerodynFile"]}
{"id": "C97", "title": "Derivatives of the section loads are numbers", "statement": "With derivatives=True, whenever distributedAeroLoads returns, every entry of the dictionaries dNp and dTp is a finite number (not NaN, not infinite).", "quantifier": "for all rotors, operating points and root finders, with IEEE infinities and NaN in the steps that divide", "why_tests_cant": "The tests differentiate only a rotating rotor with non-zero loads at every station; no test takes derivatives of a parked rotor or looks for NaN.", "anchors": ["ccblade/ccblade.py:CCBlade.__loads", "ccblade/ccblade.py:CCBlade.distributedAeroLoads"]}
{"id": "C98", "title": "Derivatives of forces, moments and coefficients are numbers", "statement": "With derivatives=True, whenever evaluate returns for a turning rotor with non-zero wind, density and radius, every entry of the dictionaries dT, dY, dZ, dQ, dMy, dMz, dMb, dP and of those of the coefficients is a finite number.", "quantifier": "for all rotors, operating points, numbers of azimuths and root finders, with IEEE infinities and NaN in the steps that divide", "why_tests_cant": "The tests compare chosen entries (dT, dQ, dP, dCT, dCQ, dCP) of rotors with non-zero thrust and torque; the entries of dCMz are never looked at.", "anchors": ["ccblade/ccblade.py:CCBlade.evaluate", "ccblade/ccblade.py:CCBlade.__init__", "ccblade/ccblade.py:CCBlade.__thrustTorqueDeriv"]}
{"id": "C99", "title": "Fitted airfoil data stays close to the tables", "statement": "CCAirfoil.evaluate at a tabulated angle of attack and Reynolds number returns the tabulated lift, drag and moment coefficients within 0.3164, 0.0317 and 0.01001 (the square roots of the smoothing factors 0.1, 0.001, 0.0001). With data for one Reynolds number this holds at every Reynolds number. An airfoil read from an AeroDyn file reproduces every row of every table of the file within these bounds.", "quantifier": "for all tables accepted by the constructor, all files with tables at different Reynolds numbers, and all spline routines that keep scipy's documented smoothing condition", "why_tests_cant": "The tests read one airfoil family and compare rotor loads; none compares the fitted coefficients with the table.", "anchors": ["ccblade/ccblade.py:CCAirfoil.__init__", "ccblade/ccblade.py:CCAirfoil.initFromAerodynFile"]}
{"id": "C100", "title": "Positive drag stays positive", "statement": "If every drag coefficient of the table is positive, CCAirfoil.evaluate returns positive drag at the tabulated angles.", "quantifier": "for all airfoil tables", "why_tests_cant": "The tests use tables with large drag at high angles only; the smoothing factor is absolute, so the effect depends on the size of the drag values.", "anchors": ["ccblade/ccblade.py:CCAirfoil.__init__"]}
{"id": "C101", "title": "Betz limit", "statement": "CCBlade.evaluate never reports more power than 16/27 of the power of the wind through the ring between hub and tip, and CP is at most 16/27 (1 - (Rhub/Rtip)^2), when the inflow angles are at most 90 degrees.", "quantifier": "for all flat rotors across a uniform wind (no cone, tilt, yaw, shear, precurve or presweep), all chords, twists, blade counts, loss options, airfoils with non-negative drag, wind speeds, rotor speeds and pitch angles", "why_tests_cant": "A physical bound over all designs; tests compare a few reference rotors with stored numbers.", "anchors": ["ccblade/ccblade.py:CCBlade.evaluate", "ccblade/ccblade.py:CCBlade.__runBEM", "ccblade/src/bem.f90:inductionFactors"]}
{"id": "C102", "title": "Betz limit at any inflow angle", "statement": "The power bound of C101 holds also where the solver settles at an inflow angle above 90 degrees.", "quantifier": "for all flat rotors across a uniform wind with airfoils of non-negative drag", "why_tests_cant": "Tests never reach the fallback brackets of the solver with a lifting blade.", "anchors": ["ccblade/ccblade.py:CCBlade.evaluate", "ccblade/ccblade.py:CCBlade.__loads", "ccblade/src/bem.f90:inductionFactors"]}
{"id": "C103", "title": "Power is at most thrust times wind speed, and thrust at most twice the dynamic pressure on the swept ring", "statement": "For a rotor without tilt, yaw, cone, precurve, presweep and shear, with non-negative chord and an airfoil whose drag is not negative, evaluate reports P <= T*U and CP <= CT for every condition whose loaded stations have an inflow angle between 0 and 90 degrees. If drag is used in the induction, the reported thrust is at most 2 * (1/2 rho U^2) * pi (Rtip^2 - Rhub^2), so CT <= 2 (1 - (Rhub/Rtip)^2).", "quantifier": "all constructor arguments with these conditions, all airfoils, all conditions with U > 0 and Omega > 0, all root finders that return zeros of the residual inside the bracket", "why_tests_cant": "it quantifies over all airfoils and geometries; tests check single turbines and no test compares the thrust to a bound", "anchors": ["ccblade/ccblade.py:CCBlade.evaluate", "ccblade/ccblade.py:CCBlade.distributedAeroLoads", "ccblade/src/bem.f90:inductionFactors", "ccblade/src/bem.f90:thrustTorque"]}
{"id": "C104", "title": "What inverse twist design needs", "statement": "CCBladeTwist.compute in inverse mode raises IndexError when every station has a relative thickness of at least 95 percent, and raises an Exception when twist optimisation is switched on as well; when it gives outputs, twist optimisation was off and some station is thinner than 95 percent.", "quantifier": "for all rotors that can be constructed, all design angles and airfoils with finite coefficients, all root finders, smoothing functions and earlier outputs", "why_tests_cant": "tests run the component on one blade, which has thin stations", "anchors": ["ccblade/ccblade_component.py:CCBladeTwist.compute"]}
{"id": "C105", "title": "A rotor with complete data can be called", "statement": "A CCBlade object built with a chord, a twist and an airfoil for each station, with precurve and presweep absent or of the right length and iterRe at least 1, can be called at any wind speed, non-zero rotor speed, pitch and azimuth: distributedAeroLoads returns one load per station, and evaluate returns one set of outputs per condition and one relative speed per station, even when the airfoils return infinities or NaN. With no condition at all evaluate raises NameError.", "quantifier": "for all constructor arguments with complete data, all airfoil functions, all root finders that raise nothing but ValueError, all operating conditions with a turning rotor", "why_tests_cant": "tests call a few rotors at a few well-behaved conditions; absence of exceptions for every condition and airfoil is not testable", "anchors": ["ccblade/ccblade.py:CCBlade.__init__", "ccblade/ccblade.py:CCBlade.distributedAeroLoads", "ccblade/ccblade.py:CCBlade.evaluate"]}
{"id": "C106", "title": "Without loss corrections only the total chord matters", "statement": "With tip and hub loss corrections off and airfoils that ignore the Reynolds number, replacing B blades by n blades whose chords are multiplied by B/n leaves the inductions, angles, coefficients and relative speeds of every station unchanged, multiplies the loads per unit span of each blade and the Reynolds number by B/n, and leaves the rotor power, thrust, side forces, torque, hub moments and their coefficients unchanged; the root bending moment of one blade is multiplied by B/n. Exceptions are the same.", "quantifier": "for all constructor arguments, blade counts at least 1, root finders and operating conditions, including NaN and infinite airfoil coefficients", "why_tests_cant": "tests use one blade count and compare no two rotors", "anchors": ["ccblade/src/bem.f90:inductionFactors", "ccblade/ccblade.py:CCBlade.distributedAeroLoads", "ccblade/ccblade.py:CCBlade.evaluate"]}
{"id": "C107", "title": "Wind speeds given per station", "statement": "As its documentation says, distributedAeroLoads accepts an array of wind speeds, one per station, and gives each station the load of its own wind speed. (Refuted: the array goes unchanged to a Fortran argument that is a scalar.)", "quantifier": "for all rotors, all arrays with one speed per station, all other arguments, and whatever the generated wrapper does with an array in place of a scalar", "why_tests_cant": "no test passes an array; a wrapper that takes the first element gives plausible numbers without an error", "anchors": ["ccblade/ccblade.py:CCBlade.distributedAeroLoads", "ccblade/ccblade.py:CCBlade.__windComponents", "ccblade/src/bem.f90:windComponents"]}
{"id": "C108", "title": "evaluate returns one power for each wind speed", "statement": "A call of evaluate(Uinf, Omega, pitch) that returns has as many thrusts and as many powers as there are wind speeds; arrays whose lengths do not match are refused.", "quantifier": "all rotors, all arrays Uinf, Omega, pitch, all root finders", "why_tests_cant": "Tests call evaluate with arrays of equal length; the mixed lengths that slip through are an unbounded family", "anchors": ["ccblade/ccblade.py:CCBlade.evaluate"]}
{"id": "C109", "title": "Betz limit for approximate solutions", "statement": "If the angles and inductions that CCBlade reports at the driving stations close the velocity triangle up to a relative error d (inflow angle between 0 and 90 degrees), CCBlade.evaluate reports at most 1/(1-d)^3 times the Betz power of the ring, whatever the root finder does inside its bracket. A residual of at most d sin(phi) closes the triangle up to d.", "quantifier": "for all flat rotors across a uniform wind, all chords, twists, blade counts, loss options, airfoils with non-negative drag, wind and rotor speeds, pitch angles, errors d in [0,1) and root finders that stay in the bracket", "why_tests_cant": "brentq stops at a tolerance, so exact solutions never occur; a test can only sample a few rotors and the stored numbers carry the same error.", "anchors": ["ccblade/ccblade.py:CCBlade.evaluate", "ccblade/ccblade.py:CCBlade.__runBEM", "ccblade/src/bem.f90:inductionFactors"]}
{"id": "C110", "title": "What the load of a station depends on", "statement": "In CCBlade.distributedAeroLoads, chords, twists and airfoils of other stations do not change the load of a station. The load is fixed by the rotor scalars, the station's own section and place, and the places of its two neighbours; on a blade without precurve the neighbours and the number of stations do not matter.", "quantifier": "for all rotors, stations, operating conditions and root finders for which the calls return", "why_tests_cant": "Locality is a statement about all other inputs; a test varies a few of them at a time.", "anchors": ["ccblade/ccblade.py:CCBlade.distributedAeroLoads", "ccblade/src/bem.f90:defineCurvature", "ccblade/src/bem.f90:windComponents"]}
{"id": "C111", "title": "The load of a station is fixed by its own section and place", "statement": "CCBlade.distributedAeroLoads reports the same load at a station of two blades that agree in the scalars and in the section and place of that station.", "quantifier": "for all pairs of rotors with the same number of stations, all conditions", "why_tests_cant": "Whether other stations can influence a load is a question about all of them.", "anchors": ["ccblade/ccblade.py:CCBlade.distributedAeroLoads", "ccblade/src/bem.f90:defineCurvature"]}
{"id": "C112", "title": "Derivatives by pitch are sums of derivatives by twist", "statement": "In the dictionaries that CCBlade.distributedAeroLoads returns with derivatives=True, the entry dpitch of a station is the diagonal entry of dtheta, special values included, and the other entries of that row of dtheta are 0. In the dictionaries of CCBlade.evaluate, the derivative of an output by the pitch is the sum of its derivatives by the twists; for a coefficient this needs its divisors to be nonzero.", "quantifier": "for all rotors, designs, conditions and root finders for which the call returns; no smoothness needed", "why_tests_cant": "The two entries are computed along different paths through the Jacobians; a test compares a few of them with rounding.", "anchors": ["ccblade/ccblade.py:CCBlade.distributedAeroLoads", "ccblade/ccblade.py:CCBlade.evaluate", "ccblade/ccblade.py:CCBlade.__thrustTorqueDeriv"]}
{"id": "C113", "title": "Without shear the hub height has no effect", "statement": "With shearExp = 0, two CCBlade objects that differ only in hubHt return the same from distributedAeroLoads and evaluate, or raise the same, and every entry dhubHt of the derivative dictionaries is 0.", "quantifier": "for all constructor arguments with shearExp = 0, all nonzero hub heights, all conditions and root finders", "why_tests_cant": "A test compares a few hub heights; an unwanted dependence may only show for other blades or azimuths.", "anchors": ["ccblade/ccblade.py:CCBlade.distributedAeroLoads", "ccblade/ccblade.py:CCBlade.evaluate", "ccblade/src/bem.f90:windComponents", "ccblade/src/bem.f90:windComponents_dv"]}
{"id": "C114", "title": "Euler relations between the reported derivatives", "statement": "With airfoils that ignore the Reynolds number, if all lengths grow at relative rate a and all speeds at relative rate b, the derivatives that CCBlade returns add up to (2b+a) times a load per length, (2b+2a) times a force, (2b+3a) times a moment, (3b+2a) times the power and 0 for a coefficient. With a = 0: dP/dUinf Uinf + dP/dOmega Omega = 3 P.", "quantifier": "for all designs at which the derivatives are defined as in C64 and C65, all rates a and b", "why_tests_cant": "A finite-difference test checks one entry at one design; this ties all entries of a dictionary together exactly at every design.", "anchors": ["ccblade/ccblade.py:CCBlade.distributedAeroLoads", "ccblade/ccblade.py:CCBlade.evaluate", "ccblade/ccblade.py:CCBlade.__thrustTorqueDeriv", "ccblade/src/bem.f90:windComponents_dv"]}
{"id": "C115", "title": "The flap routine removes its files and ignores old ones", "statement": "A call of CCAirfoil.af_flap_coords that returns leaves none of its four working files (coordinates, XFOIL script, XFOIL result, program output) in the directory; other files are untouched if XFOIL touches only its result and output files; what it returns does not depend on old files under those names; profile and name of the object stay and ctrl is the deflection.", "quantifier": "for all directories, airfoils, deflections, hinge points, process ids, programs run in place of XFOIL and number formats", "why_tests_cant": "XFOIL is not available in the tests, and a test can only try a few states of the directory.", "anchors": ["ccblade/ccblade.py:CCAirfoil.af_flap_coords"]}
{"id": "C116", "title": "The flap routine removes its files in any case", "statement": "CCAirfoil.af_flap_coords removes its working files whether it returns or raises.", "quantifier": "for all directories, airfoils and programs run in place of XFOIL", "why_tests_cant": "Needs the failure paths of an external program.", "anchors": ["ccblade/ccblade.py:CCAirfoil.af_flap_coords"]}
{"id": "C117", "title": "Parallel flap computations do not share files", "statement": "With multi_run or MPI_run, calls of CCAirfoil.af_flap_coords in processes with different process ids use disjoint sets of file names, whatever the airfoil names and deflections, and one call leaves the working files of the other unchanged; the four names of a call are different.", "quantifier": "for all airfoil names, deflections and pairs of different process ids", "why_tests_cant": "Collisions depend on names and ids; a test sees only a few, and a race does not show every time.", "anchors": ["ccblade/ccblade.py:CCAirfoil.af_flap_coords"]}
{"id": "C118", "title": "The flap coordinates are those of the deflected and repanelled profile", "statement": "If the program run obeys XFOIL's menus, CCAirfoil.af_flap_coords stores the two columns of the file XFOIL writes for the profile with a flap of the given deflection at hinge x/c and y/t, repanelled with the given number of nodes and density ratio 0.5.", "quantifier": "for all airfoils with words as names, hinge points, deflections, node numbers, process ids and directories; for all geometry operations of the program", "why_tests_cant": "The script is only text to the code; whether its lines answer XFOIL's prompts in the right order is not checked anywhere.", "anchors": ["ccblade/ccblade.py:CCAirfoil.af_flap_coords"]}
{"id": "C119", "title": "Drag does not drive a section", "statement": "If the airfoils of a rotor have no lift and nonnegative drag, no section for which the wind components normal to the rotor and in the direction of rotation have the same sign is driven: distributedAeroLoads reports Tp <= 0; and evaluate reports power <= 0 for a flat rotor at positive wind speed and rotor speed.", "quantifier": "for all blades with stations in order, chords and densities not negative, all options, wind speeds, pitch angles, azimuths and drag curves; for all root finders that return zeros of the residual in the bracket", "why_tests_cant": "A statement about the sign of a load that comes out of a root finder, for all blades, options and drag curves.", "anchors": ["ccblade/ccblade.py:CCBlade._CCBlade__runBEM", "ccblade/ccblade.py:CCBlade.distributedAeroLoads", "ccblade/ccblade.py:CCBlade.evaluate", "ccblade/src/bem.f90:inductionFactors"]}
{"id": "C120", "title": "Drag does not drive a rotor in wind from behind either", "statement": "If the airfoils of a flat rotor have no lift and nonnegative drag, evaluate reports power <= 0 at every wind speed that is not zero, also from behind.", "quantifier": "for all flat rotors with the default options, wind speeds other than 0 and rotor speeds > 0", "why_tests_cant": "The residual is NaN in the bracket meant for this case, which falls silently through to another bracket; no value looks wrong in itself.", "anchors": ["ccblade/ccblade.py:CCBlade.distributedAeroLoads", "ccblade/ccblade.py:CCBlade.evaluate", "ccblade/src/bem.f90:inductionFactors"]}
{"id": "C121", "title": "Empty precurve means a straight blade", "statement": "CCBladeLoads and CCBladeEvaluate given an empty precurve compute the same outputs and partials as with a precurve of zeros; with precurveTip = 0 the rotor is the one CCBlade builds without precurve. An empty presweep is not replaced: CCBladeEvaluate raises IndexError.", "quantifier": "for all inputs of the two components", "why_tests_cant": "The branch is for a corner case of the inputs and appears three times in the code.", "anchors": ["ccblade/ccblade_component.py:CCBladeLoads.compute", "ccblade/ccblade_component.py:CCBladeEvaluate.compute", "ccblade/ccblade_component.py:CCBladeEvaluate.compute_partials"]}
{"id": "C122", "title": "iterRe matters only through the Reynolds number of the airfoils", "statement": "If every airfoil returns the same coefficients at every Reynolds number, any iterRe >= 1 gives the same distributed loads and the same results of evaluate. With iterRe = 1 the loads of a station depend on its airfoil only through the values at one Reynolds number, that of the wind without induction.", "quantifier": "for all rotors with such airfoils, all iterRe >= 1, all conditions and azimuths; for all stations and all pairs of airfoils agreeing at that Reynolds number", "why_tests_cant": "The iteration count is a loop bound; tests compare two values of it for one rotor.", "anchors": ["ccblade/ccblade.py:CCBlade.__runBEM", "ccblade/ccblade.py:CCBlade.distributedAeroLoads", "ccblade/ccblade.py:CCBlade.evaluate"]}
{"id": "C123", "title": "Reported coefficients are those at the reported Reynolds number", "statement": "The reported lift and drag coefficients of a turning station are its airfoil's at the reported angle of attack and the reported Reynolds number. (False with the default iterRe = 1: they are looked up at the Reynolds number of the wind without induction, while the reported one uses the induced speed. True for a parked station.)", "quantifier": "for all stations with nonzero wind components and nonzero loads", "why_tests_cant": "The two Reynolds numbers differ by a few percent and most airfoil tables change little over that range.", "anchors": ["ccblade/ccblade.py:CCBlade.__runBEM", "ccblade/ccblade.py:CCBlade.__loads"]}
{"id": "C124", "title": "Lift and drag beyond the data", "statement": "Outside the data the lift and drag of an extrapolated polar follow from two continuous functions between the last data angle an and 90 degrees which start at the data's last values and end at lift 0 and the peak drag (the largest of the data's drag and cdmax): above 90 degrees mirrored with -0.7 of the lift up to 180 - an, then lift linear to 0 at 180; below the data the same with lift factor 0.7 up to -90 and -0.7 from -90 to -an, straight lines from there to the data. Hence lift is 0 at -180, -90, 90, 180, drag at +-90 is the peak drag, and drag is equal at -180 and 180.", "quantifier": "for all polars inside (-90, 90) degrees with last angle at least 0.0001 rad, all cdmax, AR, cdmin >= 0 and numbers of points >= 2", "why_tests_cant": "Seven segments with hand-written mirror formulas; a test compares a few points of one airfoil.", "anchors": ["ccblade/airfoilprep.py:Polar.extrapolate", "ccblade/airfoilprep.py:Polar.__Viterna"]}
{"id": "C125", "title": "Lift is continuous at the lower end of the data", "statement": "A row of the extrapolated polar at the first data angle has the data's lift. (False for data reaching down to minus the last angle: for a symmetric airfoil the row before the data has the same angle and 0.7 of the lift. True otherwise: lift and drag run along straight lines into the first row.)", "quantifier": "for all polars inside (-90, 90) degrees", "why_tests_cant": "Shows only for data symmetric about zero, as a jump between two rows of equal angle.", "anchors": ["ccblade/airfoilprep.py:Polar.extrapolate"]}
{"id": "C126", "title": "Left and right", "statement": "Reversing yaw, sweep (and tip sweep), azimuth and sense of rotation leaves the wind through the rotor plane at every station unchanged and reverses the wind along the sections. A rotor standing still (Omega = 0) therefore has the same section loads at the mirrored azimuth, and its thrust, torque, power, blade flap moment and tilt moment from evaluate are those of the mirrored rotor while the moment about the vertical axis changes sign; coefficients alike. Arguments refused for one rotor are refused for the other.", "quantifier": "for all constructor arguments, wind speeds, rotational speeds, azimuths, pitch angles, root finders and numbers of sectors", "why_tests_cant": "The repository's tests use no yaw and no sweep, and a mirror image is never computed.", "anchors": ["ccblade/src/bem.f90:windComponents", "ccblade/ccblade.py:CCBlade.distributedAeroLoads", "ccblade/ccblade.py:CCBlade.evaluate"]}
{"id": "C127", "title": "Blending polars in steps", "statement": "A Polar.blend of two blends of the same two polars (weights u, v) with weight w is the blend of the two polars with weight (1-w)u + wv; blending a blend once more with the second polar gives the blend with weight 1-(1-u)(1-w), and blending the first polar with a blend gives weight uw: same angles, coefficients and Reynolds number. This needs a common angle: without one the blend has no rows and blending it again raises ValueError. Airfoil.blend gives the same airfoil when the two airfoils and the weights are exchanged.", "quantifier": "all pairs of polars and airfoils with a common angle, all weights", "why_tests_cant": "the angles, coefficients and weights range over all reals and lengths", "anchors": ["ccblade/airfoilprep.py:Polar.blend", "ccblade/airfoilprep.py:Airfoil.blend"]}
{"id": "C128", "title": "Blending airfoils in steps", "statement": "Blending an airfoil with a second one (weight u) and the result again with the second one (weight w) gives the airfoil blended once with weight 1-(1-u)(1-w).", "quantifier": "all pairs of airfoils, all weights between 0 and 1", "why_tests_cant": "any number of polars and Reynolds numbers", "anchors": ["ccblade/airfoilprep.py:Airfoil.blend"]}
{"id": "C129", "title": "Order of 3-D corrections", "statement": "Polar.correction3D does not move the line fitted to the linear range of the lift (when that range ends at or below alpha_max_corr), so applying two corrections with different radius, chord and tip-speed ratio gives the same polar in either order; and the amount by which each lift coefficient is corrected stays the same when all lift coefficients are multiplied by one number.", "quantifier": "all polars with two angles in the linear range, all parameters, every least-squares routine", "why_tests_cant": "all table lengths and real parameters; the fit is itself a minimisation", "anchors": ["ccblade/airfoilprep.py:Polar.correction3D"]}
{"id": "C130", "title": "3-D correction delays stall", "statement": "Where the lift of the 2-D data has fallen below the line of the linear range (up to alpha_max_corr), correction3D raises it, at most to that line.", "quantifier": "all polars, radial positions, chords below the radius, tip-speed ratios", "why_tests_cant": "continuum of parameters; the sign changes at a chord that depends on the operating point", "anchors": ["ccblade/airfoilprep.py:Polar.correction3D"]}
{"id": "C131", "title": "Coefficients are linear in the Reynolds number between polars", "statement": "For an airfoil whose polars share one grid of angles and have distinct Reynolds numbers, the coefficient of getPolar(Re) at any angle of attack is the piecewise linear interpolation, over the Reynolds numbers, of the coefficients of the stored polars at that angle (constant beyond the ends); so it changes by at most L |Re - Re'| when the stored coefficients do.", "quantifier": "all such airfoils, angles and Reynolds numbers", "why_tests_cant": "any number of polars and angles, all real Reynolds numbers", "anchors": ["ccblade/airfoilprep.py:Airfoil.getPolar", "ccblade/airfoilprep.py:Polar.blend"]}
{"id": "C132", "title": "Coefficients are continuous in the Reynolds number", "statement": "The coefficient that getPolar(Re) gives at an angle covered by it depends continuously on Re.", "quantifier": "all airfoils with a common angle, all angles and Reynolds numbers", "why_tests_cant": "limit statement", "anchors": ["ccblade/airfoilprep.py:Airfoil.getPolar", "ccblade/airfoilprep.py:Polar.blend"]}
{"id": "C133", "title": "Relative wind and parked loads are bounded by the wind", "statement": "Whatever the tilt, yaw, cone, curvature and azimuth, the wind across a section is at most the wind speed at its height plus the speed at which the section goes round. With Omega = 0 distributedAeroLoads returns a speed of at most that wind and a load per unit span of at most its dynamic pressure times the chord times the largest resultant of the lift and drag coefficients.", "quantifier": "all geometries, wind speeds, rotor speeds and azimuths, direct and inverse mode, every root finder", "why_tests_cant": "continuum of orientations; one wrong sign in the frame change gives a section more wind than blows at some of them only", "anchors": ["ccblade/src/bem.f90:windcomponents", "ccblade/ccblade.py:CCBlade.distributedAeroLoads"]}
{"id": "C134", "title": "The loads of a section do not depend on the root finder", "statement": "If two root finders each return a zero of the residual inside the first bracket, distributedAeroLoads returns the same loads with both", "quantifier": "All sections, wind speeds, options and airfoils, all root finders that return zeros inside their bracket, usecd on or off, iterRe = 1", "why_tests_cant": "The tests run one root finder (scipy's brentq) and compare with stored numbers; they never ask whether another zero exists in the bracket", "anchors": ["ccblade/ccblade.py:CCBlade.distributedAeroLoads", "ccblade/src/bem.f90:inductionfactors"]}
{"id": "C135", "title": "Losses raise the induction", "statement": "At the same inflow angle and force coefficients, switching on tip or hub loss, or moving the tip or the hub closer to the station, does not lower the axial induction, the tangential induction or the residual returned by inductionfactors; when a loss in use is new or its end of the blade has moved, and chord and normal force are positive, the axial induction strictly rises", "quantifier": "All blade counts, radii, chords, inflow angles above 0 (below 90 degrees for the tangential induction and the residual), force coefficients that are not negative, wake rotation and drag on or off; loadings outside the guarded band of the empirical formula", "why_tests_cant": "The tests compare a few operating points with stored numbers, always with both losses on; an order between two runs for all inputs is never compared", "anchors": ["ccblade/src/bem.f90:inductionfactors"]}
