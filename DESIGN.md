# Design of the Rocq model of structuralcodes

## Modelling conventions (all files)

* Numbers: Python floats are modelled as ideal real numbers (`R` of the Coq standard library).
  Rounding, NaN, infinities and overflow are *not* modelled. Theorems are about the algorithm, not about IEEE-754.
  Integer counts are `nat`/`Z`. Decimals are written as fractions (0.85 is `85 / 100`).
* Exceptions are values: `result A := Ok a | Err e` with the Python exception class as a constructor.
  Where a function checks its arguments, the checks are modelled in the order of the source and divisions that can still meet a
  zero raise `ZeroDivisionError` (`pdiv`). Where a formula of `codes/` divides or takes a power without any check of its own, the
  model is a total real function and the theorems assume the arguments for which Python does not fail (non-zero denominators, non-negative bases).
* numpy arrays are `list R`; masked assignment is modelled by a list function that touches only the masked entries.
  In-place mutation of an argument is modelled by returning the final content of the argument next to the result
  (strain snapping, C04/C10). Object state (caches, section calculator, registry, profile attributes, name counter) is threaded explicitly.
* Loops become structural recursion, folds or recursion on explicit fuel (the Python iteration limit itself).
* External libraries are function arguments (oracles); what is assumed of them is an explicit hypothesis of the theorem, written in an `S_` file:
  the `triangle` mesher (a function from outline to triangles; `tiles` when accuracy is claimed), shapely's polygon difference, split and centroid
  (`slices` in C43, `cuts_at` in C50; union and corner rounding of profile outlines: `exact_union`, `exact_offset` in C53; the union of the cracked polygons is a parameter that yields one polygon with a perimeter or several), `numpy.linalg.eig` (`eigen_ok`), `numpy.linalg.solve` (Cramer's rule, `LinAlgError` for a zero determinant), `scipy.interpolate.griddata`
  (`interpolates`, `interpolates_gaps`). Each contract is shown satisfiable by an `Example`. GEOS' point buffer is modelled as the regular polygon it yields.
* Warnings, names of materials, plotting/representation (`_repr_svg_`) and type hints are not modelled.
* Files: `M_*.v` model (definitions, each citing file:lines of /repo/structuralcodes), `S_*.v` independent specification (short, does not use model helpers),
  `L_*.v` lemmas and proofs, `P_*.v` the property theorems (only `Theorem`, `exact`, `Print Assumptions`) and, beside each
  theorem, `Example`s showing that concrete inputs meet its hypotheses.
* `_refuted` = an expectation a user would have is false of the (faithful) model; the theorem exhibits a witness or a family of witnesses, and the
  property's statement in properties.jsonl names the exception. `_partial` = part of the property.

## Per property: what is modelled and how it is proved

| id | modelled code (model file) | specification | proof |
|----|---------------------------|---------------|-------|
| C01-C03 | `_coeff`, `marin_integration`, rectangle corners (M_Marin) | boundary and iterated Riemann integrals over fans of triangles and trapezoids, shoelace formula | Beta integrals and binomial identity, induction on the vertex list |
| C04 | `preprocess_strains_with_limits`, scalar and array branch (M_Laws) | distance to the limits | case analysis; array branch by list induction; overlapping limits refuted |
| C05 | scalar and array branches of all laws (M_Laws, M_Laws2) | map of the scalar function over the array | list induction, masked assignment lemmas |
| C06 | `get_stress`, `get_tangent` | Coquelicot `is_derive` away from branch points and snapping zones | locality of derivatives, derivative rules |
| C07 | constructors and stress functions | odd, monotone, continuous, bounded, documented branch values | case analysis, monotonicity by derivative sign or algebra |
| C08 | `__marin__`, `__marin_tangent__`, `_discretize_law` (M_Discr) | `describes`: polynomial pieces equal stress on their ranges, zero outside | piece by piece; default discretisation: polygon through the sampled points, error of the chord bounded |
| C09-C10 | `get_secant`, in-place snapping seen by the caller | E*eps = sigma; caller's array afterwards | list induction |
| C11-C13 | Parallel, InitialStrain, UserDefined | weighted sum, shift, linear interpolation | list induction, interval search |
| C14 | `Material`, Newton search for the initial strain | residual below the tolerance | induction on fuel |
| C15-C17 | code registry, factories (M_Registry) | state machine over histories of calls | induction on the history |
| C18 | reinforcement classes and code tables (M_Reinf) | design points of the elastic-plastic curve | algebra |
| C19, C20, C44 | fibre integrator, mesh input (M_Fiber) | resultants over the listed fibres; Jacobian; tiling error bound | list induction, Coquelicot derivatives, Cauchy-Schwarz for definiteness |
| C21 | Marin integrator (M_MarinInt) | area integral (iterated Riemann integral) of the stress field, in rotated axes and (S_Frame) in the user's axes | moments of polynomial strips, C01; user's axes: the iterated integrals in two frames differ, edge by edge, by a potential (integration by parts against a merely integrable curve), which telescopes around a closed ring (L_Frame*) |
| C22, C23, C26 | equilibrium searches, strain-profile solver (M_Section) | `balances` with the code's own tolerance; existence for monotone Lipschitz response | bracket invariant, fuel induction; Cramer's rule for the linear case |
| C24, C25 | section calculator state (M_Section, S_History) | result of a call after any history equals the result of a fresh object | induction on histories |
| C27-C29 | balanced failure, axial limits, domain sampling (M_Domain) | strains within limits; extremes; list of profiles | fold invariants, list induction |
| C30 | gross properties (M_Gross) | integrals, Steiner, additivity, principal axes | C01, list induction, algebra |
| C31, C33, C45, C46 | geometry classes (M_Geo) | isometries, bookkeeping over any nesting, cutting lines, outlines | algebra with sin/cos, list induction |
| C32 | reinforcement layouts (M_Bars) | positions of the bars | list induction, floor |
| C34-C36 | concrete formulas, creep and shrinkage of the three codes (M_Conc, M_Creep) | polynomial characterisation of the powers, monotonicity, limits, tables through their nodes | derivative signs, `Rpower` lemmas |
| C37-C41 | shear, cracking, MC2010 shear/torsion/punching/interface/bond, EC2:2023 SLS and steel (M_Shear, M_Crack, M_ShearMC, M_Punch, M_Sls) | closed formulas, caps, rejections, round trips | algebra, case analysis on the checks |
| C42 | concrete material classes, basic materials (M_Concrete) | values given or computed, law built from them | case analysis |
| C43 | `BaseProfile` caches and plastic axis search (M_Profile) | halving of the area within the code's tolerance; reads independent of history | fuel induction, history induction |
| C47-C49 | bending strength, moment-curvature, biaxial domain (M_Section, M_Domain) | the points are in equilibrium, balanced, ultimate | C22, C23, C27 composed through the section state |
| C50 | `calculate_elastic_cracked_properties` (M_Cracked) | `cuts_at` (what shapely's split and centroid yield), integral over the part above the axis, no-tension law | C21 and C23 applied to the cracked laws: the no-tension response equals the first moment of the part above the axis; C30 for the classical properties |
| C51 | `from_geometry` of the three geometry classes (M_Derive) | outline kept, elastic twin of a material | induction on the parts with a growing set of materials; C30 model for the gross properties |
| C52 | the fourteen profile classes: tables (M_ProfileTable, generated), `get_polygon`, `__init__`, `profiles` (M_Catalog) | a row read as dimensions; decimal numerals in names; rollable dimensions | decision over the tables by computation on integers; invariant on the mutated tables for histories |
| C53 | `_common_functions.py`: the five constructors (M_Outline); shapely's `unary_union` and `offset_curve` are parameters | contracts of the two (towers; corners cut inside their triangle); nominal area and second moments | moments of closed chains (mirror images, telescoping of the 16 chords, trapezoids under a monotone chain); Green for shifts |
| C54 | nothing new: `calculate_bending_strength`, `calculate_moment_curvature`, `calculate_limit_axial_load`, the interaction domains on `MarinIntegrator` (M_Section, M_Domain, M_MarinInt) | exact resultants of a profile about a turned axis (S_Exact), and plain area integrals in the user's axes (S_Frame, theorems `C54_*_area`); `drawn`, `follows` | C21 on the rotated section; half-turn invariance (the integrator turns by pi for negative curvatures); solvers of C22/C23 on the exact response; positivity of area integrals for monotone laws |
| C55 | nothing new: `FiberIntegrator` (M_Fiber) against `MarinIntegrator` (M_MarinInt) | `triangulates`: counter-clockwise triangles whose directed edges turn into the outline's by reordering, cancelling opposite edges and joining divided ones (S_Mesh); points of a triangle; slope bound of a curve on a range | area integral of a field linear in y over a triangle is monotone in the field (split at the middle corner); edge sums are invariant under `same_boundary`; midpoint rule per triangle in the axes of the curvature, carried back by the frame change of C21 |
| C56 | nothing new: `rotate_geo` (M_Section) and the analyses of M_Section/M_Domain with both integrators | rotated profile, strength, curve point, domain and matrix; limits contain the load; uniform strain gives one constant polynomial; a mesher that turns its triangles with the surface (S_Turn) | rotation back by theta + phi of the turned section is rotation back by theta of the original, so strength and curve run on the same geometry and stored data; the integrators' forces and stiffness are equivariant (aligned angle for bent profiles, moments of the rings for uniform ones), carried through the domain and the Newton loop; histories removed by the simulation of C24 |
| C57 | each law packed as the record of methods the integrators ask for (M_Fields): scalar and array stress/tangent, `__marin__`, `__marin_tangent__`, the base-class discretisation, `Parallel`. Simplification: a packed record cannot raise, so an error of the base-class `__marin__` is read as an empty answer; the theorems' hypotheses exclude it | `represented`: the pieces handed over give, strain by strain, the stress of one curve and its slope; `own_curve`, polygon through the tenths, weighted sum (S_Fields) | pieces found by location in the breaks; refinement of breaks for `Parallel`; then the region integrals of C22 hold for any represented law. Polygon error by the mean value bound on chords |
| C58 | the whole calculator with either integrator, on two sections related by `moved` (S_Move) | `moved`: the outlines have the same placed edges as multisets, in either sense. Green's theorem on the placed edges gives the moments of the moved outline (the terms in a telescope around a closed outline); the sense of rotation cancels against the orientation the integrator gives the rings. Governing profiles move with the heights; the pivot solver only sees the axial force, which is unchanged; Newton's iteration keeps its norm only if the origin is kept, so `calculate_strain_profile` and the moment-curvature relation (axial strain at the origin kept between points) are proved for a = b = 0. `near_origin` excludes sections whose vertices all lie beyond 10^16 (the code's initial `min`) |
| C59 | the whole calculator with the Marin integrator, on a section and one `assembled` from pieces of its surfaces (S_Pieces) | `pieces_of`: the edges of the pieces turn into the edges of the surface by reordering, cancelling against reversed edges and joining divided edges, so the Green sums of any integrable field agree (also after turning); under uniform strain the laws have to answer a repeated question alike (`repeats`, proved of the laws for separated limits). Balanced failure: the loop is a left-biased minimum over pairs; the pairs of a piece that does not reach the extreme ordinate are strictly behind, so each block collapses to the pair of its surface. Forces, stiffness, balanced failure and lowest ordinate being equal, every operation of `run` is equal as a function of the state. Excluded: laws that are not `steady`, ultimate strains that are not of both signs, the fibre integrator (its mesh changes with the pieces) |
| C60 | the Marin integrator and calculator with the `by_default` polygon of a curved law against the integrals over the law's true curve (`sargin_curve`, `parabola_curve`, `popovics_curve`, S_Curved) | The surface integral is divided over a triangulation (C55), on every triangle the two integrands differ by at most d, so by d times the area (`area_near`); transported through `run` by the forms the results have (C52-C54). The bounds d: second-order interpolation error from a Lipschitz slope (Sargin), first-order from a Lipschitz curve (parabola, Popovics: their second derivatives are unbounded at the peak resp. at 0). Laws whose polygon has a tail that is not negligible (stress at the ultimate strain below 1e-6 of the peak) are excluded; the mesh used for the bound is any triangulation and is not computed by the code; the profiles are those the code computed, not those of the true curve |
| C61 | calculator and both integrators on two sections whose lists of surfaces and bars are permutations of each other (`reordered`, S_Order) | Two-section simulation: the stored data of the two calculators are related (`gperm`: permuted groups with permuted fibres), every analysis preserves the relation and answers the same (`kin_run`); sums over permuted lists; the grouping of bars by material is characterised without order (`group_bars_spec`). Balanced failure: by C27 the result is a profile that touches both ultimate strains and crosses none, and there is only one such profile; the heights are unique by hypothesis `one_failure` (used for the failure pivots), proved for sections of one material and for reinforced sections of one concrete and one steel. Surfaces that write back different strains are excluded (`write_alike`); the counterexample is C21_surface_order_refuted |
| C62 | both integrators' forces and stiffness on the `joined` section and on the `larger_section` (S_Scale) | Everything the integrators return is a function of the moments of the drawn stress field and of the bars (`marin_moments`, `fiber_entries`); these are additive over lists, and homogeneous of degree i+j+2 in the scale: each edge integral of the field along a scaled edge is a power of l times the original one (`gedge_larger`), triangle areas and centroids scale. Rotation angle invariant under scaling (`tilt_larger`). On a new calculator; transfer to any history by C24. Tolerances of the solvers (bisection, Newton) are absolute, so results of calculate_bending_strength and others are not exactly to scale and are not claimed |
| C63 | `initial_law` (M_Prestress: the wrapper packed as a law) in the sections of both integrators | Additivity (C62) reduces a section with one more bar to the bar alone, which is computed; the prepared entries of a fibre section depend on the laws only through their values at the fibres' strains (`prepared`), so a common initial strain is a shift. Limits: an exact-integrator section needs equally many bars of every material (C21), so one tendon beside several bars raises ValueError there |
| C64 | The two integrators as in C19/C21 | Fibre by fibre the work is bounded by the slopes; the exact integrator is the limit of fibre sums over meshes refined by quartering (`L_Refine`, `L_Unique`), so the bounds pass to it. A weighted integral of a squared affine function that vanishes makes the function vanish (`L_Unique2`), which gives uniqueness |
| C65 | The two integrators and the solvers as in C19, C21, C25 to C28 | Stress odd and tangent even, law by law (`S_Odd`); the exact integral of an odd field over the section is odd (also where it does not exist), the uniform-strain branch is compared entry by entry (`L_Odd2`); a relational argument carries the symmetry through limits and the Newton iteration (`L_Odd`), and C09 through any history; `P_Centre`: the half-turned section (C56) is the section itself listed in another order (C58 with C61), which gives the sections symmetric about a point or an axis, bars in pairs included |
| C66 | `M_Report`: the fields of SectionProperties in order with their labels, `isclose` over numpy's allclose, `__format__` with the formatting of one number as a parameter | `S_Report`: a relation on each of the 29 quantities, named one by one; metric inequalities lifted to all quantities; the report is split line by line |
| C67 | `M_Life`: class counters with Python's attribute lookup along the class path, names, the stored gross properties | no separate specification: the statements speak of lists of ids and answers; induction over the sequence of constructions and readings |

## Which code is modelled

Modelled completely (up to the conventions above): `core/_marin_integration.py`; `core/base.py` (laws and materials); every file of
`materials/constitutive_laws`, `materials/basic`, `materials/reinforcement`, `materials/concrete`; `codes/__init__.py`; `codes/mc2010/*`,
`codes/ec2_2004/*`, `codes/ec2_2023/*`; `geometry/_geometry.py`, `_rectangular.py`, `_circular.py`, `_reinforcement.py`,
`geometry/profiles/*`; `sections/_generic.py`; `sections/_rc_utils.py`; `sections/section_integrators/*`; the result classes of
`core/_section_results.py` as far as the theorems read them.

Not modelled: `codes/mc2020` (empty); `__repr__`, plotting helpers, type checks by `isinstance` on arguments that the model's
types already exclude.

Findings recorded by the `_refuted` theorems of C50: `mesh_size` is ignored by `calculate_elastic_cracked_properties`; in a composite section the steel
plates are cut at the neutral axis like the concrete; a disconnected compression zone ends in an `AttributeError` (a clause of `C50_cracked_section`).

## Trusted base

* The Coq 8.16.1 kernel and `coqc`; no plugin, no `native_compute`, no switched-off check.
* Axioms, as printed by `Print Assumptions` under every property theorem: only those of the standard library's real numbers and logic:
  `ClassicalDedekindReals.sig_forall_dec`, `ClassicalDedekindReals.sig_not_dec`, `FunctionalExtensionality.functional_extensionality_dep`,
  `Classical_Prop.classic`. The Example `C34_interpolation_exists` (that a griddata satisfying the contract exists) also uses the standard library's
  `ClassicalChoice` (`RelationalChoice.relational_choice`). No axioms of our own.
* Coquelicot (no axioms of its own) is used for derivatives and integrals; its definitions `is_derive`, `RInt`, `continuous` are part of the reading of the specifications.
* The faithfulness of the model to the Python text is by reading; it is not tested against execution (no Python dependencies in the sandbox).
* Properties that cannot be expressed in this model: none of the listed ones; statements about floating-point rounding error, run time or memory are not made.

## Mutation testing

`seeded/LOG.jsonl` records wrong programs tried against the theorems: the model definition edited, the edit, the claim it breaks, the theorems
whose proof failed, and the theorems tightened when none did.
