# Formal model of Engabra (g3, 3D geometric algebra) — design

## 1. Architecture

All Coq sources are in `rocq/theories` (logical prefix `Verif`), in the order
of `rocq/_CoqProject`.

* `Num.v` – three small operation classes. `Ring0 F` holds `0 1 + - * neg`;
  `Arith F` adds division, square root, absolute value, the comparisons,
  `isnormal`, NaN and dyadic literals; `Libm F` holds the math-library
  functions.  They are plain records (type classes) without laws.
* Model files (one per header): `Types.v`, `Priv.v`, `Const.v`, `OpsUni.v`,
  `OpsAdd.v`, `OpsSub.v`, `OpsMul.v`, `Validity.v`, `Compare.v`, `Func.v`,
  `Io.v`.  Every C++ function/overload is one Gallina definition, polymorphic
  in the carrier `F` standing for `double` (`Io.v`: doubles only), citing the
  header lines it models.  Operand types are codes `ty` with `val F t` the C++
  struct, and `mul`, `add`, `sub`, ... are total dispatchers over `ty` (the
  overload set), so that "for every overload" is one universally quantified
  theorem.
* `Stream.v` models the environment of `g3io.hpp`: number formatting and
  parsing of the C++ library and the stream state (see 3).
* Carriers: `R` (exact arithmetic, ring part), `option R` (exact arithmetic
  with one absorbing non-number: 1/0, the root or the logarithm of a negative
  number are `None`), Flocq `binary_float 53 1024` (IEEE-754 binary64, round to
  nearest even, one NaN, `B64.v`), `bool` (has a NaN been seen, `Taint.v`),
  value/error pairs (`ErrFacts.v`).  `Rel.v` proves once, for every overload,
  that related carriers give related results; this carries exact-arithmetic
  facts, NaN tracking and error bounds over to binary64.
* `Spec*.v` – specifications independent of the model: Cl(3,0) as functions
  from subsets of {e1,e2,e3} with the reordering sign (`SpecCl.v`; the
  `spec_*` theorems of `Prop_Algebra.v` prove it is the unique product with
  the Clifford relations), the exponential as a power series (`SpecExp.v`),
  Cl(0,3) (`SpecAnti.v`), vector geometry (`SpecGeom.v`), validity, rounding
  bounds, decimal text.
* `*Facts.v`, `*Thm.v` and the other files – proofs.  `Prop_*.v` – the
  property theorems only, each closed by `exact`, with `Print Assumptions`
  beneath and examples that meet the hypotheses.

Undefined behaviour (reading outside an array, reading an uninitialised
double) is a distinct outcome in the model (`None`), and it is a theorem that
it is not reached (C24, C25, C43).

`seeded/LOG.jsonl` records the wrong programs the theorems were tested
against: one line per edit of the model.  Each edit is made in a scratch copy
and the files that depend on it are rebuilt; a lemma whose proof script breaks
is replaced by `Admitted` and the build goes on.  `failed` lists the property
theorems whose own proof broke or which `Print Assumptions`, run on the edited
build, shows to rest on such a lemma.  In the first batch only the theorems of
the stated claim (at most three per file) were checked in this way; the others,
which merely mention a broken lemma through their proofs' text, are listed as
`unconfirmed_dependents` and are not evidence.  A broken proof shows that the
theorem is no longer proved, not by itself that it is false.

## 2. What is modelled and what is not

Modelled, function by function: all of `g3type.hpp`, `g3_private.hpp`,
`g3const.hpp`, `g3opsUni.hpp`, `g3opsAdd*.hpp`, `g3opsSub*.hpp`,
`g3opsMul*.hpp`, `g3traits.hpp`, `g3validity.hpp`, `g3compare.hpp`, `g3func.hpp`, `g3io.hpp`,
and the demonstration program `demo/helloEngabra.cpp`.  `engabra.hpp`, `g3ops.hpp` and
`g3publish.hpp`, which only include others and publish names, are modelled with the
`#include` lines and declarations of all headers (`Headers.v`, `Incl.v`).

Not modelled:

* `src/*.cpp` (version strings), `test` except `computeExp` and `check` of
  `test_g3func_exp.cpp` (TestExp.v).
* Compiler-level facts: overload resolution between the overloads (each call
  in the model names its overload), implicit conversion of `double` other than
  through the modelled constructors, constexpr-ness, aliasing of a reference
  argument with the result.  The model's values are immutable; the compound
  writes of the sources are on locals only.
* Excess precision: every operation of the binary64 instance rounds once to
  binary64, to nearest even.  Fused multiply-add contraction and other rounding
  modes are covered for products, `magSq` and rotations by C68 only.
* NaN payload and sign, floating-point exception flags.
* The values of the math library (`cos`, `sin`, `exp`, `log`, `atan2`, and
  `abs`, `*`, `/`, `sqrt` of `std::complex`): arbitrary functions in the
  binary64 instance – theorems there quantify over all of them, with a stated
  hypothesis where one is needed – and the exact real functions in the exact
  instance.
* Locales other than "C", stream exceptions, I/O errors of the underlying
  buffer.

Simplifications inside the modelled code are stated in the comment of the
definition concerned.  The ones that matter: templates are instantiated at the
types the library offers; `std::array` is a record of its elements; loops over
the fixed-size arrays are written out, loops over arrays of any length are
folds; `std::cout` output of `exp(MultiVector)` is part of that function's
result, as labels and values; `Cout.v` turns it into text.

## 3. Trusted base

* Coq's kernel (8.16.1), the `vm_compute` reduction machine, and the build
  (`coqc`, `coq_makefile`).
* Axioms: only those of the standard library's real numbers and classical
  logic, as printed by `Print Assumptions` under each theorem and listed per
  theorem in section 6.  They are
  `ClassicalDedekindReals.sig_forall_dec`,
  `ClassicalDedekindReals.sig_not_dec`,
  `FunctionalExtensionality.functional_extensionality_dep` and
  `Classical_Prop.classic`.  No axiom is added by this development, and none
  comes from another library (Flocq and Coquelicot use the same four).
* The reading of C++ that the model definitions embody: that each definition
  computes what the cited lines compute, and that a C++ `double` operation is
  the corresponding IEEE-754 binary64 operation (Flocq's formalisation).  For
  the 271 overloads of the operators, the involutions, `magSq` and `ampSq` the
  first half has been checked by a program: `tools/crosscheck.py` reads their
  bodies as text, expands each component of the result into an expression and
  compares it with what the model yields over strings in place of numbers; all
  agree in every operation, sign and bracket.
* For C43–C46, C48, C70 and C71: `Stream.v`, our model of `std::num_put`, `std::num_get`
  and of `std::istream`/`std::ostream` formatting, in the "C" locale, with
  correctly rounded conversions both ways.  Where the standard leaves a choice
  it follows the GNU implementation: accumulated characters of a number,
  treatment of an over- or underflowing numeral, text of infinities and NaN.
  The sign GNU prints for a NaN depends on its sign bit, which the model of
  binary64 does not have: it is the parameter `nanneg`, over which the theorems
  quantify (one sign for all NaNs of one call).
* The specifications `Spec*.v`, meant to be read.

## 4. Where the code differs from its documentation

Each of these is a theorem (`*_refuted` or the one named), with a concrete
witness, about the faithful model.

* C03, C40: six subtraction overloads return the negated difference:
  BiVector-Scalar, BiVector-Vector, TriVector-Scalar, TriVector-Vector,
  Spinor-Scalar, Spinor-BiVector.  The unit tests encode the wrong sign.
* C16, C56: `direction` and `inverse` on doubles overflow or underflow in the
  squared length: a valid vector of length 1e-200 has no usable direction or
  inverse, though both are representable.
* C15: `inverse` of ComPlex and MultiVector returns null for small invertible
  values.
* C19: `exp(MultiVector)` is not the exponential: it is wrong for every
  non-zero pure vector and trivector.  It computes the exponential of the
  algebra whose generators square to -1.
* C48: `exp(MultiVector)` prints ten lines to standard output.
* C23: the cardinal sine uses its polynomial for all negative angles.
* C24: an out-of-range index of a MultiVector reads the trivector instead of
  giving NaN.
* C28: `one<T>` is not a unit for the types that contain no scalar.
* C29: `null<MultiVector>` has a NaN in its scalar part only.
* C31: `isValid` inspects only the first component of a Vector or BiVector.
* C33: `exp(BiVector)` with a NaN behind a valid first component returns the
  valid spinor 1.
* C58: `exp(BiVector)` of a valid bivector of norm about 2 is 1 when the first
  component of its direction is subnormal, and null when the first component
  itself is.
* C62: `logG2` loses the bivector part where it is below 2^-31 of the norm
  (`C62_small_angles_refuted`): it compares the cosine with 1 - epsilon, and the
  cosine of an angle of 2^-31 rounds to 1.  A rotation by 2^-40 has logarithm
  zero.  In between, up to 2^-23, the bound is 2^-22 instead of 128 units.
* C73: `inverse` of a MultiVector without an inverse is documented to be null;
  for 268435475 + 161061285 e1 + 214748380 e2 rounding makes it finite.
* C75: text of `enote` with its default of 15 digits is not stable under
  reading and writing: the double above 10^23 is written as
  1.000000000000000e+23, which reads as the double below, which is written as
  9.999999999999999e+22.  With any other number of digits text is stable.
* C76: the documentation of `nearlyEquals` (g3compare.hpp:46-64) says that
  the tolerance applies to each individual component.  The code compares the
  norm of the difference with the norm of the reference, per grade: a
  component that is small beside the others may be wrong by any factor.
  Values that meet the documented condition are accepted; the converse fails.
* C77: `nearlyEquals` reads as an equivalence, but is neither transitive nor
  symmetric at one tolerance (4, 5, 6 at one quarter), and a grade that is
  zero in the second argument only is accepted where the exchanged call is
  rejected at every tolerance up to 1.
* C79: on doubles too, `exp(MultiVector)` is accurate for another algebra
  than the library's; for vectors and trivectors of length 1 and more the
  distance from the exponential is bounded below for every math library.
* C80: `direction` is documented as unitary. Its components stay within
  [-1, 1], but the scalar part of the product of two computed directions can
  be 1.0000000000000002 (direction of (0, 1, 5) with itself), the direction of
  49 e1 is 0.9999999999999999 e1, and below 2^-510 components can exceed 1.
* C81: `isValid` rejects subnormal numbers, so the difference of two valid
  scalars can be invalid although it is finite and computed without error
  (for example 2^-971 (1 + 2^-52) minus 2^-971), and so can products of
  vectors with components near 2^-486 and inverses of vectors near 2^341.
* C84: the reference exponential of test_g3func_exp.cpp does not return for an
  argument with an infinite component that `isValid` does not look at (vec_1,
  vec_2, biv_1, biv_2), and the comparisons of its test0 and test1, which main
  leaves out, fail for vectors and trivectors: exp(MultiVector) is wrong there
  (C19, C79), the reference is right.
* C85: `nearlyEquals(exp(logG2(s)), s, tol)` is false for 1 + 2^-40 e23 with
  every tolerance up to 1: `logG2` drops rotation angles below about 2^-27 (C62),
  and the comparison is relative for the bivector part alone.
* C86: the angle between e2 and e2 + 2^-40 e3, computed as the norm of the
  bivector part of `logG2(b*a)`, is exactly 0, whatever the math library: `logG2`
  treats a bivector part below about 2^-27 of the spinor as zero.
* C87: `sqrtG2` of a valid non-zero scalar below 4 epsilon (2^-51, say) is zero,
  though its root, 2^-25.5, is far above that bound; the bound is on the
  argument and not relative to anything.
* C88: the manual's example `exp(turnHalf * direction(...))` "along an arbitrary
  (bivector) direction in space" equals -1 under `nearlyEquals` for the plane of
  the test, but not for 2 e23 + e31 + e12, where |pi * direction| comes out two
  units in the last place above pi and the bivector part exceeds epsilon.
* C89: the README's example does not compile as written. A comma is missing in
  `{ 100., 200. 300. }`; `spin * vec * reverse(spin)` is an `ImSpin` and
  `spin * biv * reverse(spin)` a `Spinor`, which do not convert to the `Vector`
  and `BiVector` they initialise. The model takes their `.theVec` and `.theBiv`;
  C89 shows that in real arithmetic nothing else is lost.
* C90: `logG2(-1)` is `pi e23` by default, so that it depends on the axes (the
  caller may pass the plane). `nearlyEquals` compares component by component
  if the reference is shorter than the smallest normal double, so that its answer
  depends on the axes there; elsewhere it compares lengths and does not.
* C97: `g3opsAdd_same.hpp` (line 61) and `g3opsSub_same.hpp` (line 68) use `is::blade`
  but do not include `g3traits.hpp`. A source file that begins with `g3publish.hpp`,
  `g3opsAdd.hpp` or one of 29 other headers does not compile. The tests cannot show
  it, since all begin with `checks.hpp`, which includes `g3traits.hpp` by way of
  `g3io.hpp`. `g3_private.hpp` uses `std::` and includes nothing.
* C98: the comments of `g3opsAdd_X.hpp` and `g3opsSub_X.hpp` (line 30) promise the
  operators with X on either side. A program that includes one of them alone has
  those with X on the left; those with X on the right are all there for MultiVector
  only.
* C99: all powers `exp(t*logG2(s))` of a spinor whose bivector part is below 2^-31 of
  its norm have bivector part 0, because `logG2` drops it (C62); the power to the
  exponent 1 is off by up to 2^-22 there, and repeated use does not approach the spinor.
* C37: relative `nearlyEquals` depends on the order of its arguments.
* C38: `nearlyEquals` of arrays accepts distinct arrays when the squared norm
  overflows.
* C39: `operator==` compares numbers, not bits (+0 equals -0).
* C43: extraction of an object whose text contains an invalid number leaves
  the rest of that grade in the stream; the next grade starts there.
* C70: so a file with a subnormal component reads on without an error, but
  every later object is made of parts of two.
* C44: `operator<<` after `setw` with a non-blank fill character glues numbers
  together.
* C46: `enote` with its default of 15 digits does not round-trip; the default
  text of the largest double cannot be read back and that of the smallest
  normal one reads as a subnormal; digit counts of 2^31 and more are narrowed.
* C09: the README's table of duals has two wrong signs (the code is right).
* C22: the sense of a rotation by `exp(-B/2)`-style rotors, stated explicitly
  since the sources leave it open: from w towards -wB.

## 5. Plan per property

| id | modelled by | proved by |
|----|-------------|-----------|
| C01 | `mul` over all type pairs, instance R | componentwise equality with the Cl(3,0) product, `ring` |
| C02 | `add` over all pairs that exist | same |
| C03 | `sub` over all pairs that exist | same; refuted for six overloads, proved for all the others |
| C04 | `mul`, `add` | through C01/C02 and associativity of the Cl(3,0) product |
| C05 | constants | computation; expansion by `ring` |
| C06 | `mul` | C01 + commutation in Cl(3,0); converse from commuting with e1,e2,e3 |
| C07 | `OpsUni` on binary64 | case analysis, negation is exactly involutive |
| C08 | `OpsUni`, `mul` | via C01; uniqueness by induction on generators |
| C09 | `dual` | via C01 |
| C10 | `magSq` | `ring`, sums of squares |
| C11 | `magnitude` on option R | Cauchy–Schwarz; multiplicativity by `ring` |
| C12 | `ampSq` | `ring` |
| C13 | `amplitude` with the exact principal complex root | real analysis of the root |
| C14–C15 | `inverse` on option R, zero also on binary64 | `field`; singularity from multiplicativity of ampSq |
| C16 | `pairMagDirFrom`, `direction` | field; binary64 counterexamples by computation |
| C17–C18 | `exp` on option R | power series split in even/odd parts (Coquelicot) |
| C19 | `exp(MultiVector)` | refuted; what it computes for every argument (exponential of Cl(0,3)); partial: spinor arguments |
| C20–C21 | `logG2`, `sqrtG2` | trigonometry; error bounds in the threshold branches |
| C22 | `mul` | `ring`; rotation angle through exp |
| C23 | `sync` | alternating series remainder |
| C24–C25 | `operator[]` over all naturals | case analysis, out-of-bounds is `None` |
| C26 | constructors | computation; on binary64 for `operator+` up to signed zero |
| C27 | `ComPlex` | against Coquelicot complex numbers |
| C28–C29 | constants | C01/C02; refuted where the templates give other values |
| C30–C31 | `isValid` on binary64 | Flocq; refuted for multi-component blades, true characterisation proved |
| C32–C33 | all overloads on binary64 | NaN tracking over expression trees; refuted where branches drop NaN |
| C34–C39 | `Compare.v` on binary64 | Flocq rounding monotonicity and error bounds |
| C40 | overloads on binary64 | symmetry of rounded + and * |
| C41–C42 | overloads on binary64 via expression trees | one error theorem over trees, instantiated at every overload |
| C43–C46 | `Io.v` | list/stream induction; decimal conversion as exact rationals; Flocq spacing argument for 17 digits |
| C47 | constants | Machin series bounds on PI |
| C48 | `exp(MultiVector)` as (output text, result) | refuted |
| C49 | `mulTy`, `gp` | C01 and one generic operand pair per type pair |
| C50–C51 | `logG2`, `exp(Spinor)`, `sqrtG2` | through C18, C20, C21; injectivity of cosine on [0,pi] |
| C52–C53 | `inverse`, `mul` | `field`, `ring` against classical vector algebra |
| C54–C57 | `mul`, `add`, `sub`, `magSq`, `magnitude`, `direction`, `inverse` on binary64 | runs of the model on bounds and on error counts, Cauchy–Schwarz, induction over the list of factors |
| C58 | `exp(BiVector)`, `exp(Spinor)` on binary64, any math library of bounded error | C55, C56 for magnitude and direction, Lipschitz bounds of sine and cosine |
| C59 | traits and overload sets as tables (`Traits.v`) | factorisation of bivectors, homogeneity of products of orthogonal vectors |
| C60–C61 | `Compare.v`, operators on binary64 | relation `same` preserved by every operation; order of doubles |
| C62 | `logG2` on binary64, any math library of bounded error | C55, C56 for magnitude and direction, exponential of bivectors from C18, Lipschitz bounds |
| C63 | `sqrtG2`, `exp` after `logG2` on binary64 | C58, C62, halving is exact up to underflow, squares of nearby spinors |
| C64 | `sq`, `cube` | geometric product of SpecCl.v; C17 for rotors; C57 for the error |
| C65 | `operator<<`, `priv::put` | state of the stream model before and after; layout of C44 |
| C66 | products, sums, involutions, magnitudes, directions, blade inverses, spinor functions | sign choices per blade in SpecMirror.v; `same` of SpecSame.v |
| C67 | `exp(BiVector)`, products with a Spinor, `reverse` | true exponential of SpecExp.v, bounds of SpecAcc.v |
| C68 | products, `magSq`, rotation, under contraction and rounding modes | relation `runs` of SpecFma.v, bounds of SpecRound.v |
| C69 | expressions over all operators, any size | `meaning`, `error`, `integer_bound`, `exponent_bound` of SpecProg.v |
| C70 | operator>> and operator<< called repeatedly on one stream | `words`, `reads`, clients of SpecFile.v |
| C71 | output of exp(MultiVector), demo/helloEngabra.cpp | `shows_general`, `shows_as`, `labelled`, `demo_text` (SpecDemo.v) |
| C72 | products, sums, unary operations, magnitude, direction, inverse, nearlyEquals on binary64 | `scaled`, `no_underflow`, `between`, `nonzero` (SpecScale.v) |
| C73 | `ampSq`, `amplitude`, `inverse(ComPlex)`, `inverse(MultiVector)` on binary64, any complex library of bounded error | `complex_within` (SpecAmp.v); exact algebra of SpecCl.v |
| C74 | all products, `reverse`, `dirverse`, `dual`, `magSq`, `ampSq` on binary64, to the bit | lists of excepted pairs and `identical` (SpecBit.v) |
| C75 | `fixed`, `enote`, `operator<<` after `operator>>` | `copied` (SpecStable.v), equality of texts |
| C76 | `nearlyEquals` of `x*inverse(x)`, of `magnitude*direction` | `one`, tolerances as reals, `norm2`, `dist2` |
| C77 | chains of `nearlyEquals`, exchanged arguments | `linked`, `plain_grade`, `vanishing_grade`, `allowed` (SpecChain.v) |
| C78 | attitude composed step by step with `direction` | `renormalised`, `medium`, `unit_of`, `angle_ok`, `angle_error` (SpecLoop.v) |
| C79 | `exp(MultiVector)` on doubles, any math library | `is_aexp` (SpecAnti.v), `is_cexp`, `trig_within`, `exp_within` (SpecAcc.v) |
| C80 | magnitudes and directions on doubles, exact inequalities | `dominated`, `reaches`, `in_box`, `on_axis` (SpecExtent.v) |
| C81 | validity of computed results on doubles | `multiple`, `on_grid`, `sized`, `grid_bound` (SpecGrain.v) |
| C82 | logarithm of products, powers, interpolation | `power` (SpecSlerp.v), `cross`, `vtimes` (SpecGeom.v) |
| C83 | mirrors and rotations | `mirrors`, `mirror_product`, `mirror_scale` (SpecSlerp.v), `mirrored` (SpecGeom.v) |
| C84 | reference exponential of the tests | `is_cexp` (SpecExp.v), `cnorm`, `has_nan` |
| C85 | round trips under nearlyEquals | `balanced` (SpecTrip.v), `trig_within` etc. (SpecAcc.v) |
| C86 | computed angles | `angle_between`, `half_angle` (SpecAngle.v), `trig_within` etc. (SpecAcc.v) |
| C87 | scalars as spinors | `on_axis` (SpecExtent.v), `axis_plane` (SpecScal.v) |
| C88 | turns by a given angle | `turn`, `turn_plane` (SpecTurn.v) |
| C89 | the README's example | `turned`, `into_frame`, `out_of_frame`, `attitude_of`, `angle3D`, `distance`, `frame_angle`, `frame_error` (SpecFrame.v) |
| C90 | choice of axes | `cturn`, `seen`, `seen_result`, `long_parts` (SpecAxes.v), `alike`, `alike_result` (SpecProg.v) |
| C91 | all logarithms and roots | `is_log`, `is_root`, `angle_of` (SpecPrin.v), `is_cexp` (SpecExp.v) |
| C92 | unit spinors are the rotations | `rotation`, `isometry`, `difference` (SpecCover.v), `rotate`, `dot`, `det3` (SpecFunc.v) |
| C93 | nearby arguments, nearby results | `apart`, `returns_within` (SpecNear.v) |
| C94 | polar form of multivectors | `amplitude_is`, `unitary`, `zero_divisor` (SpecPolar.v) |
| C95 | motions with constant angular velocity | `changes_by`, `swept` (SpecMotion.v) |
| C96 | multivectors as exponentials | `amplitude_is` (SpecPolar.v), `is_cexp` (SpecExp.v) |
| C97 | headers in any order (refuted; exact condition) | `in_order`, `no_repetition`, `reaches` (SpecIncl.v) |
| C98 | which operators exist, and in which file | `binary`, `unary`, `file_add` (SpecOver.v), `has_grade` |
| C99 | powers of spinors on doubles | `powered`, `exponent` (SpecPow.v), `is_cexp`, `Rpower` |
| C100 | interpolation between attitudes | `step`, `interpolated`, `inner`, `attitude` (SpecInterp.v), `is_cexp` |
| C101 | turning one vector into another | `turner`, `turns`, `normal_part` (SpecToward.v), `sandwich`, `dot`, `axis` |
| C102 | reflections and projections on doubles | `sized` (SpecGeomAcc.v), `mirrored`, `split_along` (SpecGeom.v) |
| C103 | sequences of reflections on doubles | `mirrored_all`, `reflect_all` (SpecReflSeq.v), `sized` (SpecGeomAcc.v) |

## 6. Axioms of each theorem

Generated from the `Print Assumptions` output of the build.

**None (closed under the global context)**

`C02_sum_exists`, `C03_difference_exists`, `C04_distributive_sums_exist`,
`C07_commute`, `C07_compose`, `C07_twice`, `C09_dual_types`, `C24_in_range`,
`C24_multivector_out_of_range`, `C24_never_out_of_bounds`,
`C24_out_of_range_partial`, `C24_out_of_range_refuted`,
`C25_read_after_write`, `C25_write_one_component`, `C26_constructors`,
`C26_eight_numbers`, `C26_rebuild`, `C27_bijection`, `C27_conversions`,
`C29_null_multivector`, `C59_inverse`, `C59_missing`, `C59_only`,
`C59_unambiguous`, `C60_bool`, `C65_put_double_changes`, `C65_sequence`,
`C65_state`, `C65_text`, `C69_type`, `C84_fuel`, `C97_any_order_partial`,
`C97_any_order_refuted`, `C97_checked`, `C97_hidden_from_tests`,
`C97_main_header`, `C97_once`, `C97_published`, `C97_repaired`,
`C98_differences`, `C98_files`, `C98_gathered`, `C98_involutions`,
`C98_left_operand`, `C98_products`, `C98_right_operand_refuted`, `C98_sums`,
`C98_templates`

**`sig_forall_dec`**

`C08_on_vectors`

**`sig_forall_dec`, `functional_extensionality_dep`**

`C01_product`, `C02_sum`, `C03_difference_partial`, `C03_difference_refuted`,
`C03_negation`, `C03_wrong_sign`, `C04_associative`, `C04_distributive_left`,
`C04_distributive_right`, `C04_scalars_move`, `C04_unit`, `C05_basis_table`,
`C05_expansion`, `C05_expansion_unique`, `C06_central`, `C06_converse`,
`C08_dirverse_antiautomorphism`, `C08_dirverse_unique`,
`C08_oddverse_automorphism`, `C08_oddverse_unique`,
`C08_reverse_antiautomorphism`, `C08_reverse_unique`,
`C09_dual_is_pseudoscalar_product`, `C09_dual_twice`,
`C10_magSq_positive_definite`, `C10_magSq_scalar_part`,
`C10_magSq_sum_of_squares`, `C11_product_bound`, `C19_other_algebra`,
`C22_composition`, `C28_no_identity_possible`, `C28_one`, `C28_one_refuted`,
`C28_zero`, `C44_enote`, `C44_fixed`, `C44_operator`, `C45_columns`,
`C49_product_types_minimal`, `C53_bivector_products`, `C53_triple_product`,
`C53_trivector_products`, `C53_vector_product`, `C59_blade`, `C64_powers`,
`C64_types`, `C65_put_double`, `C69_exact`, `C71_number`, `C83_mirrors`,
`C83_products`, `C83_spinor`, `C89_moment`, `C90_expressions`,
`C90_one_description`, `C95_velocity`, `spec_den_injective`,
`spec_product_is_clifford`, `spec_product_unique`

**`sig_forall_dec`, `sig_not_dec`, `functional_extensionality_dep`**

`C11_magnitude_scales`, `C11_magnitude_squared`, `C11_multiplicative`,
`C11_triangle`, `C12_ampSq`, `C12_ampSq_multiplicative`,
`C12_ampSq_overloads`, `C14_blade_inverse`, `C14_blade_inverse_of_zero`,
`C16_decomposition`, `C16_zero`, `C22_decomposition`, `C22_sandwich`,
`C27_operations`, `C52_projection_on_plane`, `C52_projection_on_vector`,
`C52_reflection`, `C84_sound`, `C89_rigid`, `C90_directions`,
`C90_near_zero_refuted`, `C90_nearlyEquals`, `C91_minus_one`, `C92_motions`,
`C92_motions_keep_distances`, `C92_spinors_rotate`, `C92_two_spinors`,
`C93_direction`, `C93_inverse`, `C93_magnitude`, `C93_rotation`

**`sig_forall_dec`, `sig_not_dec`, `classic`, `functional_extensionality_dep`**

`C07_binary64`, `C100_doubles`, `C100_exact`, `C100_longer_way`,
`C101_doubles`, `C101_opposite_refuted`, `C101_short_refuted`, `C101_turn`,
`C102_along_vector`, `C102_on_plane`, `C102_orthogonal`,
`C102_orthogonal_plane`, `C102_projected_twice`, `C102_reflection`,
`C103_angles`, `C103_any_number`, `C103_linear`, `C103_twice`,
`C13_amplitude`, `C14_zero_binary64`, `C15_complex`, `C15_complex_null`,
`C15_complex_valid`, `C15_multivector`, `C15_multivector_null`,
`C15_multivector_valid`, `C15_no_inverse`,
`C15_threshold_refuses_invertible`, `C16_direction_refuted_binary64`,
`C17_commuting`, `C17_inverse`, `C17_one_parameter_group`, `C17_series`,
`C17_unit_magnitude`, `C17_zero`, `C18_inverse`, `C18_series`, `C19_refuted`,
`C19_spinor_partial`, `C19_what_is_computed`, `C19_wrong_trivectors`,
`C19_wrong_vectors`, `C20_below_threshold`, `C20_log`, `C20_no_plane`,
`C21_invalid`, `C21_small`, `C21_sqrt`, `C22_rotation_angle`,
`C23_cardinal_sine`, `C23_negative_angles`, `C27_inverse`,
`C29_all_nan_partial`, `C29_all_nan_refuted`, `C29_basis_valid`,
`C29_constants_valid`, `C29_null_invalid`, `C29_null_never_equal`,
`C29_null_never_nearly_equal`, `C30_sign_changes_keep_validity`,
`C30_valid_double`, `C31_partial`, `C31_refuted`, `C31_valid_accepted`,
`C31_what_is_checked`, `C32_difference`, `C32_inverse`,
`C32_magSq_keeps_nan`, `C32_nan_is_never_lost`,
`C32_nonfinite_is_never_lost`, `C32_product`, `C32_sum`, `C32_unary`,
`C33_direction`, `C33_exp_bivector_hidden_nan`, `C33_exp_bivector_partial`,
`C33_exp_bivector_refuted`, `C33_exp_multivector`, `C33_exp_spinor_partial`,
`C33_inverse`, `C33_log`, `C33_sqrt`, `C34_complete`, `C34_reflexive`,
`C34_sound`, `C34_symmetric`, `C35_invalid`, `C35_reflexive`, `C36_arrays`,
`C36_numbers`, `C36_objects`, `C37_complete`, `C37_not_symmetric`,
`C37_reflexive`, `C37_sound`, `C38_complete`, `C38_objects`,
`C38_overflow_refuted`, `C38_sound`, `C39_componentwise`, `C39_reflexive`,
`C39_symmetric`, `C39_transitive`, `C40_central_commutes`,
`C40_difference_anticommutes`, `C40_scalar_is_double`, `C40_sum_commutes`,
`C40_wrong_sign_pairs`, `C41_difference`, `C41_product`, `C41_sum`,
`C42_difference`, `C42_magSq`, `C42_product`, `C42_sum`, `C43_all_valid`,
`C43_dead_stream`, `C43_each_grade`, `C43_failing_grade`, `C43_initialised`,
`C43_valid_iff`, `C44_fixed_read`, `C44_operator_read`,
`C46_default_refuted`, `C46_fewer_digits`, `C46_narrowing_refuted`,
`C46_numbers`, `C46_objects`, `C47_literal`, `C47_pi_constants`,
`C48_lines_partial`, `C48_refuted`, `C50_log_of_exp`,
`C51_rotor_between_vectors`, `C54_difference`, `C54_magSq`, `C54_product`,
`C54_sum`, `C55_magSq`, `C55_magSq_not_negative`, `C55_magnitude`,
`C55_overflow`, `C55_underflow`, `C56_direction`, `C56_direction_unit`,
`C56_inverse`, `C56_inverse_range_refuted`, `C57_long_product`,
`C57_product`, `C57_rotation`, `C58_exp_bivector`, `C58_exp_spinor`,
`C58_first_component_refuted`, `C58_library`, `C58_subnormal_refuted`,
`C60_equal_nearly`, `C60_sign_of_zero`, `C60_tolerance`, `C61_involutions`,
`C61_product`, `C61_sum`, `C62_library`, `C62_log`,
`C62_small_angles_refuted`, `C63_exp_log`, `C63_library`, `C63_sqrt`,
`C64_rotor`, `C64_rounding`, `C66_comparison`, `C66_direction`,
`C66_functions`, `C66_inverse`, `C66_involutions`, `C66_magnitude`,
`C66_product`, `C66_reverse`, `C66_sum`, `C66_validity`, `C67_rotation`,
`C68_contraction`, `C68_integers`, `C68_integers_magSq`, `C68_magSq`,
`C68_model`, `C68_product`, `C68_product_any`, `C68_rotation`,
`C68_rotation_any`, `C69_associative`, `C69_chain`, `C69_distributive`,
`C69_error`, `C69_finite`, `C69_integers`, `C69_mirror`, `C69_nan`,
`C69_no_overflow`, `C69_nonfinite`, `C69_same_meaning`, `C69_zero_sign`,
`C70_lines`, `C70_loop`, `C70_misaligned_refuted`, `C70_printed`,
`C70_sequence`, `C70_terminates`, `C71_demo`, `C71_demo_literals`,
`C71_demo_values`, `C71_exp`, `C71_exp_silent`, `C71_exp_values`,
`C71_number_back`, `C71_number_near`, `C72_compare`, `C72_difference`,
`C72_direction`, `C72_inverse`, `C72_magnitude`, `C72_product`,
`C72_product_range`, `C72_sum`, `C72_unary`, `C72_zero_grade`,
`C73_amplitude`, `C73_amplitude_even`, `C73_inverse_complex`,
`C73_inverse_integers`, `C73_inverse_multivector`, `C73_singular_refuted`,
`C73_squared_amplitude`, `C74_ampSq_alone`, `C74_ampSq_scalar`,
`C74_ampSq_trivector`, `C74_associate`, `C74_commute`, `C74_cycle`,
`C74_dirverse`, `C74_dual_left`, `C74_dual_right`, `C74_infinite`,
`C74_magSq`, `C74_magSq_alone`, `C74_multivector`, `C74_reverse`,
`C75_default_refuted`, `C75_enote`, `C75_enote_copies`, `C75_fixed`,
`C75_fixed_copies`, `C75_operator`, `C76_accepts`, `C76_associative_refuted`,
`C76_components`, `C76_components_refuted`, `C76_default_refuted`,
`C76_direction`, `C76_inverse`, `C76_range_refuted`, `C76_swapped_refuted`,
`C77_chain`, `C77_exchange`, `C77_same_tolerance_refuted`, `C77_symmetric`,
`C77_transitive`, `C77_zero_grade_refuted`, `C78_attitude`, `C78_exact`,
`C78_plain_refuted`, `C78_rotates`, `C78_rotors`, `C78_unit`,
`C79_other_algebra`, `C79_overloads`, `C79_spinors`,
`C79_trivectors_refuted`, `C79_vectors_refuted`, `C80_axis`, `C80_box`,
`C80_cosine_refuted`, `C80_covers`, `C80_monotone`, `C80_small_refuted`,
`C80_unit_refuted`, `C81_difference_refuted`, `C81_direction`, `C81_inverse`,
`C81_inverse_refuted`, `C81_length`, `C81_product`, `C81_product_refuted`,
`C81_program`, `C81_sums`, `C82_angle`, `C82_interpolation`, `C82_power`,
`C84_accurate`, `C84_ends`, `C84_finite`, `C84_null`,
`C84_trivectors_refuted`, `C84_vectors_refuted`, `C85_exp_log`,
`C85_inverse`, `C85_sqrt`, `C85_typical`, `C85_typical_inverse`,
`C85_unbalanced_refuted`, `C86_log_exp`, `C86_relative_refuted`, `C86_small`,
`C86_spinor`, `C86_vectors`, `C87_log`, `C87_small_refuted`, `C87_sqrt`,
`C87_units`, `C88_accepted`, `C88_manual`, `C88_manual_refuted`, `C88_named`,
`C88_turn`, `C89_angle`, `C89_angle_computed`, `C89_attitude`, `C89_readme`,
`C89_round_trip`, `C89_sequence`, `C90_default_plane_refuted`,
`C90_exponentials`, `C90_inverses`, `C90_log_root`, `C90_sizes`,
`C91_all_logarithms`, `C91_all_roots`, `C91_principal_logarithm`,
`C92_exponentials`, `C93_cut`, `C93_exp_bivector`, `C93_exp_spinor`,
`C93_log`, `C93_root`, `C93_turn`, `C94_amplitude`, `C94_polar_form`,
`C94_product`, `C94_sign`, `C94_types`, `C94_zero_divisors`, `C95_motion`,
`C96_amplitude`, `C96_logarithms`, `C96_polar_exponential`,
`C98_equality_and_text`, `C98_functions`, `C99_add`, `C99_inverse`,
`C99_norm`, `C99_powers`, `C99_small_angles_refuted`

