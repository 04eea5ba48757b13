{
 "claims": [
  {
   "property": "C01",
   "status": "proved",
   "theorems": [
    "spec_product_is_clifford",
    "spec_product_unique",
    "spec_den_injective",
    "C01_product"
   ],
   "note": "All 100 operand type pairs; the spec product is the unique bilinear product with the Clifford relations (spec_* theorems)."
  },
  {
   "property": "C02",
   "status": "proved",
   "theorems": [
    "C02_sum",
    "C02_sum_exists"
   ],
   "note": "Every sum overload that exists denotes the sum; every pair of types has an overload except those listed by C02_sum_exists."
  },
  {
   "property": "C03",
   "status": "partial",
   "theorems": [
    "C03_negation",
    "C03_difference_refuted",
    "C03_wrong_sign",
    "C03_difference_partial",
    "C03_difference_exists"
   ],
   "note": "False as stated: six overloads (BiVector-Scalar, BiVector-Vector, TriVector-Scalar, TriVector-Vector, Spinor-Scalar, Spinor-BiVector) return the negated difference, proved for all operands. C03_difference_partial proves every other overload."
  },
  {
   "property": "C04",
   "status": "proved",
   "theorems": [
    "C04_associative",
    "C04_distributive_left",
    "C04_distributive_right",
    "C04_distributive_sums_exist",
    "C04_unit",
    "C04_scalars_move"
   ],
   "note": "Exact real arithmetic. All triples of operand types; C04_distributive_sums_exist says for which pairs a sum overload exists."
  },
  {
   "property": "C05",
   "status": "proved",
   "theorems": [
    "C05_basis_table",
    "C05_expansion",
    "C05_expansion_unique"
   ],
   "note": "Exact real arithmetic. Products of the constants of the library against the table, and every multivector is a unique combination of them."
  },
  {
   "property": "C06",
   "status": "proved",
   "theorems": [
    "C06_central",
    "C06_converse"
   ],
   "note": "Exact real arithmetic. C06_converse: no other type commutes with everything."
  },
  {
   "property": "C07",
   "status": "proved",
   "theorems": [
    "C07_twice",
    "C07_commute",
    "C07_compose",
    "C07_binary64"
   ],
   "note": "Any numbers whose negation undone gives the number back; C07_binary64 instantiates it on doubles, bit for bit."
  },
  {
   "property": "C08",
   "status": "proved",
   "theorems": [
    "C08_reverse_antiautomorphism",
    "C08_dirverse_antiautomorphism",
    "C08_oddverse_automorphism",
    "C08_on_vectors",
    "C08_reverse_unique",
    "C08_dirverse_unique",
    "C08_oddverse_unique"
   ],
   "note": "Exact real arithmetic. Includes uniqueness: each is the only (anti)automorphism with its values on vectors."
  },
  {
   "property": "C09",
   "status": "proved",
   "theorems": [
    "C09_dual_is_pseudoscalar_product",
    "C09_dual_twice",
    "C09_dual_types"
   ],
   "note": "Exact real arithmetic. The README has two signs of the table of duals wrong; the code is proved against multiplication by e123."
  },
  {
   "property": "C10",
   "status": "proved",
   "theorems": [
    "C10_magSq_scalar_part",
    "C10_magSq_sum_of_squares",
    "C10_magSq_positive_definite"
   ],
   "note": "Exact real arithmetic. All types."
  },
  {
   "property": "C11",
   "status": "proved",
   "theorems": [
    "C11_magnitude_squared",
    "C11_magnitude_scales",
    "C11_triangle",
    "C11_multiplicative",
    "C11_product_bound"
   ],
   "note": "Exact real arithmetic (the model with real components and one NaN). Multiplicative when one operand is a versor type; for general multivectors only the factor 2 bound holds (an example attains it)."
  },
  {
   "property": "C12",
   "status": "proved",
   "theorems": [
    "C12_ampSq",
    "C12_ampSq_overloads",
    "C12_ampSq_multiplicative"
   ],
   "note": "Exact real arithmetic (the model with real components and one NaN). All types with an overload."
  },
  {
   "property": "C13",
   "status": "proved",
   "theorems": [
    "C13_amplitude"
   ],
   "note": "Exact real arithmetic (the model with real components and one NaN). The root is the principal one."
  },
  {
   "property": "C14",
   "status": "proved",
   "theorems": [
    "C14_blade_inverse",
    "C14_blade_inverse_of_zero",
    "C14_zero_binary64"
   ],
   "note": "Exact real arithmetic (the model with real components and one NaN). C14_zero_binary64 treats zero on doubles; see C16 for the range in which doubles behave."
  },
  {
   "property": "C15",
   "status": "proved",
   "theorems": [
    "C15_complex",
    "C15_complex_valid",
    "C15_complex_null",
    "C15_multivector",
    "C15_multivector_valid",
    "C15_multivector_null",
    "C15_no_inverse",
    "C15_threshold_refuses_invertible"
   ],
   "note": "Exact real arithmetic (the model with real components and one NaN). Validity of the result is characterised exactly; the threshold refuses some invertible values (C15_threshold_refuses_invertible)."
  },
  {
   "property": "C16",
   "status": "proved",
   "theorems": [
    "C16_decomposition",
    "C16_zero",
    "C16_direction_refuted_binary64"
   ],
   "note": "Exact arithmetic; C16_direction_refuted_binary64 shows what overflow and underflow of the squared length do on doubles."
  },
  {
   "property": "C17",
   "status": "proved",
   "theorems": [
    "C17_series",
    "C17_unit_magnitude",
    "C17_inverse",
    "C17_one_parameter_group",
    "C17_commuting",
    "C17_zero"
   ],
   "note": "Exact real arithmetic (the model with real components and one NaN). The result is the sum of the power series, except for bivectors shorter than the smallest positive double, where the distance is bounded by that length."
  },
  {
   "property": "C18",
   "status": "proved",
   "theorems": [
    "C18_series",
    "C18_inverse"
   ],
   "note": "Exact real arithmetic (the model with real components and one NaN). As C17, times the exponential of the scalar part."
  },
  {
   "property": "C19",
   "status": "partial",
   "theorems": [
    "C19_refuted",
    "C19_wrong_trivectors",
    "C19_wrong_vectors",
    "C19_spinor_partial",
    "C19_other_algebra",
    "C19_what_is_computed"
   ],
   "note": "False as stated: exp(MultiVector) differs from the exponential series for every nonzero pure trivector and vector (C19_wrong_*). C19_what_is_computed says for every argument what it computes instead: the exponential in the algebra with generators squaring to -1 (C19_other_algebra). C19_spinor_partial proves the spinor case."
  },
  {
   "property": "C20",
   "status": "proved",
   "theorems": [
    "C20_log",
    "C20_below_threshold",
    "C20_no_plane"
   ],
   "note": "Exact real arithmetic (the model with real components and one NaN). Exact away from the negative real axis of the spinor, within 2^-25 relative next to it; the threshold and the missing plane are separate theorems."
  },
  {
   "property": "C21",
   "status": "proved",
   "theorems": [
    "C21_sqrt",
    "C21_small",
    "C21_invalid"
   ],
   "note": "Exact real arithmetic (the model with real components and one NaN). As C20; spinors below four epsilon give zero (C21_small)."
  },
  {
   "property": "C22",
   "status": "proved",
   "theorems": [
    "C22_sandwich",
    "C22_composition",
    "C22_rotation_angle",
    "C22_decomposition"
   ],
   "note": "Exact real arithmetic (the model with real components and one NaN). Norm, angle, orientation, composition and the amount and sense of the rotation. The sense is from w towards -wB."
  },
  {
   "property": "C23",
   "status": "proved",
   "theorems": [
    "C23_cardinal_sine",
    "C23_negative_angles"
   ],
   "note": "Exact real arithmetic (the model with real components and one NaN). All angles from zero on; C23_negative_angles: for angles from -7 down the polynomial exceeds sin(x)/x by at least x^4/240."
  },
  {
   "property": "C24",
   "status": "partial",
   "theorems": [
    "C24_never_out_of_bounds",
    "C24_in_range",
    "C24_out_of_range_refuted",
    "C24_multivector_out_of_range",
    "C24_out_of_range_partial"
   ],
   "note": "False as stated: an out-of-range index of MultiVector reads the trivector component instead of NaN (C24_out_of_range_refuted, C24_multivector_out_of_range). C24_out_of_range_partial proves NaN for every other type; access is never out of bounds for any type."
  },
  {
   "property": "C25",
   "status": "proved",
   "theorems": [
    "C25_write_one_component",
    "C25_read_after_write"
   ],
   "note": "For any component type. An index past the last writes the trivector component, as reading one does (see C24)."
  },
  {
   "property": "C26",
   "status": "proved",
   "theorems": [
    "C26_constructors",
    "C26_rebuild",
    "C26_eight_numbers"
   ],
   "note": "For any component type."
  },
  {
   "property": "C27",
   "status": "proved",
   "theorems": [
    "C27_bijection",
    "C27_operations",
    "C27_inverse",
    "C27_conversions"
   ],
   "note": "Against the complex numbers of Coquelicot. Products and quotients of std::complex are abstract on doubles (Annex G of C)."
  },
  {
   "property": "C28",
   "status": "partial",
   "theorems": [
    "C28_zero",
    "C28_one",
    "C28_one_refuted",
    "C28_no_identity_possible"
   ],
   "note": "zero<T> and one<T> proved where a unit exists; one<Vector>, one<BiVector>, one<TriVector>, one<ImSpin>, one<DirPlex> are not units (C28_one_refuted), and no element of those types could be (C28_no_identity_possible)."
  },
  {
   "property": "C29",
   "status": "partial",
   "theorems": [
    "C29_null_invalid",
    "C29_constants_valid",
    "C29_basis_valid",
    "C29_all_nan_refuted",
    "C29_null_multivector",
    "C29_all_nan_partial",
    "C29_null_never_nearly_equal",
    "C29_null_never_equal"
   ],
   "note": "False as stated only in 'every component is NaN': null<MultiVector> has one NaN and seven zeros (C29_all_nan_refuted, C29_null_multivector). All other clauses proved for every type; C29_all_nan_partial excludes MultiVector only."
  },
  {
   "property": "C30",
   "status": "proved",
   "theorems": [
    "C30_valid_double",
    "C30_sign_changes_keep_validity"
   ],
   "note": "Binary64: zero or normal, both directions."
  },
  {
   "property": "C31",
   "status": "partial",
   "theorems": [
    "C31_refuted",
    "C31_what_is_checked",
    "C31_valid_accepted",
    "C31_partial"
   ],
   "note": "False as stated: only the first component of each grade is inspected (C31_refuted; C31_what_is_checked is the exact characterisation). C31_partial: types without a Vector or BiVector part."
  },
  {
   "property": "C32",
   "status": "proved",
   "theorems": [
    "C32_product",
    "C32_sum",
    "C32_difference",
    "C32_unary",
    "C32_inverse",
    "C32_nan_is_never_lost",
    "C32_nonfinite_is_never_lost",
    "C32_magSq_keeps_nan"
   ],
   "note": "Binary64, all type pairs: no operation loses a NaN, nor a value that is not finite."
  },
  {
   "property": "C33",
   "status": "partial",
   "theorems": [
    "C33_exp_bivector_refuted",
    "C33_exp_bivector_hidden_nan",
    "C33_exp_bivector_partial",
    "C33_exp_spinor_partial",
    "C33_exp_multivector",
    "C33_log",
    "C33_sqrt",
    "C33_direction",
    "C33_inverse"
   ],
   "note": "False as stated: exp(BiVector) with NaN behind a valid first component returns the valid spinor 1 (C33_exp_bivector_hidden_nan). logG2, sqrtG2, direction, inverse, exp(MultiVector) proved; exp(BiVector), exp(Spinor) proved for NaN in the inspected components. inverse<ComPlex/MultiVector> and exp assume the math library keeps NaN."
  },
  {
   "property": "C34",
   "status": "proved",
   "theorems": [
    "C34_sound",
    "C34_symmetric",
    "C34_reflexive",
    "C34_complete"
   ],
   "note": "Binary64. Complete up to the rounding of the subtraction: every double below the tolerance bounds an accepted distance."
  },
  {
   "property": "C35",
   "status": "proved",
   "theorems": [
    "C35_reflexive",
    "C35_invalid"
   ],
   "note": "Binary64, all types; every component is inspected, unlike isValid."
  },
  {
   "property": "C36",
   "status": "proved",
   "theorems": [
    "C36_objects",
    "C36_numbers",
    "C36_arrays"
   ],
   "note": "Binary64; tolerance zero, negative or NaN."
  },
  {
   "property": "C37",
   "status": "proved",
   "theorems": [
    "C37_sound",
    "C37_complete",
    "C37_reflexive",
    "C37_not_symmetric"
   ],
   "note": "Binary64. Sound and complete with an explicit rounding allowance; C37_not_symmetric records that the comparison depends on the operand order."
  },
  {
   "property": "C38",
   "status": "proved",
   "theorems": [
    "C38_sound",
    "C38_complete",
    "C38_objects",
    "C38_overflow_refuted"
   ],
   "note": "C38_sound, C38_complete and C38_objects cover the range without overflow; C38_overflow_refuted is the counterexample outside it: distinct arrays accepted because the squared norm overflows."
  },
  {
   "property": "C39",
   "status": "proved",
   "theorems": [
    "C39_componentwise",
    "C39_symmetric",
    "C39_transitive",
    "C39_reflexive"
   ],
   "note": "Binary64; operator== is componentwise IEEE equality, symmetric and transitive, reflexive exactly without NaN, not bitwise (zeros)."
  },
  {
   "property": "C40",
   "status": "proved",
   "theorems": [
    "C40_sum_commutes",
    "C40_scalar_is_double",
    "C40_central_commutes",
    "C40_difference_anticommutes",
    "C40_wrong_sign_pairs"
   ],
   "note": "Binary64, single NaN (payload bits not modelled). Central types also commute. C40_wrong_sign_pairs covers the six pairs of C03."
  },
  {
   "property": "C41",
   "status": "proved",
   "theorems": [
    "C41_product",
    "C41_sum",
    "C41_difference"
   ],
   "note": "Hypothesis is only that the result is finite, which implies no intermediate overflowed. Sums and differences are shown correctly rounded."
  },
  {
   "property": "C42",
   "status": "proved",
   "theorems": [
    "C42_product",
    "C42_sum",
    "C42_difference",
    "C42_magSq"
   ],
   "note": "All type pairs; differences of the six wrong-sign pairs (C03) are exactly the opposite."
  },
  {
   "property": "C43",
   "status": "proved",
   "theorems": [
    "C43_initialised",
    "C43_valid_iff",
    "C43_all_valid",
    "C43_failing_grade",
    "C43_each_grade",
    "C43_dead_stream"
   ],
   "note": "All types, all texts, all earlier contents, binary64. After an invalid number the rest of its grade stays in the stream and the next grade begins there (C43_example_shifted). std::istream is a model of the environment."
  },
  {
   "property": "C44",
   "status": "proved",
   "theorems": [
    "C44_fixed",
    "C44_enote",
    "C44_operator",
    "C44_fixed_read",
    "C44_operator_read"
   ],
   "note": "All values including infinities and NaN, all digit counts. operator<< needs a blank fill character or no field width left on the stream; C44_operator_glued shows why. The *_read theorems carry the text back to an object."
  },
  {
   "property": "C45",
   "status": "proved",
   "theorems": [
    "C45_columns"
   ],
   "note": "Digit counts up to the range of int."
  },
  {
   "property": "C46",
   "status": "proved",
   "theorems": [
    "C46_objects",
    "C46_numbers",
    "C46_fewer_digits",
    "C46_default_refuted",
    "C46_narrowing_refuted"
   ],
   "note": "C46_fewer_digits covers the default of 15 digits; the end of the range is excluded because there the default text overflows (C46_largest) or becomes subnormal (C46_smallest). Digit counts from 2^31 on are narrowed (C46_narrowing_refuted)."
  },
  {
   "property": "C47",
   "status": "proved",
   "theorems": [
    "C47_pi_constants",
    "C47_literal"
   ],
   "note": "Each of the six constants is strictly nearer to the exact multiple of PI (Coq reals) than every double of another value; the literal of the source also denotes that double."
  },
  {
   "property": "C48",
   "status": "partial",
   "theorems": [
    "C48_refuted",
    "C48_lines_partial"
   ],
   "note": "False of the code: exp(MultiVector) writes ten lines to std::cout (C48_refuted; C48_lines_partial says exactly when and which). The other functions carry no output in the model, by reading the source, not by proof."
  },
  {
   "property": "C49",
   "status": "proved",
   "theorems": [
    "C49_product_types_minimal"
   ],
   "note": "Over all 100 operand type pairs of the model (double included)."
  },
  {
   "property": "C50",
   "status": "proved",
   "theorems": [
    "C50_log_of_exp"
   ],
   "note": "Exact arithmetic; hypotheses keep away from the comparisons with numeric_limits constants in logG2 and direction."
  },
  {
   "property": "C51",
   "status": "proved",
   "theorems": [
    "C51_rotor_between_vectors"
   ],
   "note": "Exact arithmetic; the hypothesis on the dot product excludes (nearly) parallel vectors, where the code takes the other branch."
  },
  {
   "property": "C52",
   "status": "proved",
   "theorems": [
    "C52_reflection",
    "C52_projection_on_vector",
    "C52_projection_on_plane"
   ],
   "note": "Exact arithmetic."
  },
  {
   "property": "C53",
   "status": "proved",
   "theorems": [
    "C53_vector_product",
    "C53_triple_product",
    "C53_bivector_products",
    "C53_trivector_products"
   ],
   "note": "Exact arithmetic; independent of the Clifford product of SpecCl.v."
  },
  {
   "property": "C54",
   "status": "proved",
   "theorems": [
    "C54_product",
    "C54_sum",
    "C54_difference",
    "C54_magSq"
   ],
   "note": "Binary64, all type pairs."
  },
  {
   "property": "C55",
   "status": "proved",
   "theorems": [
    "C55_magSq_not_negative",
    "C55_magSq",
    "C55_magnitude",
    "C55_overflow",
    "C55_underflow"
   ],
   "note": "Binary64, all types; the relative bound on magnitude needs a norm of at least 2^-480, below which squares lose bits."
  },
  {
   "property": "C56",
   "status": "proved",
   "theorems": [
    "C56_direction",
    "C56_direction_unit",
    "C56_inverse",
    "C56_inverse_range_refuted"
   ],
   "note": "Binary64. Inverse: the four blade types (ComPlex and MultiVector inverses are covered in exact arithmetic by C14-C17 only). C56_inverse_range_refuted describes inverse outside the range, where the documented identity fails."
  },
  {
   "property": "C57",
   "status": "proved",
   "theorems": [
    "C57_product",
    "C57_rotation",
    "C57_long_product"
   ],
   "note": "Binary64; no bound on the number of factors. Only the final product is assumed finite."
  },
  {
   "property": "C58",
   "status": "proved",
   "theorems": [
    "C58_exp_bivector",
    "C58_exp_spinor",
    "C58_first_component_refuted",
    "C58_subnormal_refuted",
    "C58_library"
   ],
   "note": "Binary64, every math library of the given accuracy (C58_library shows there are some). C58_first_component_refuted and C58_subnormal_refuted describe what happens when the first component is tiny."
  },
  {
   "property": "C59",
   "status": "proved",
   "theorems": [
    "C59_blade",
    "C59_only",
    "C59_unambiguous",
    "C59_missing",
    "C59_inverse"
   ],
   "note": "Exact arithmetic for the notion of blade. Overload sets are transcribed as tables (Traits.v)."
  },
  {
   "property": "C60",
   "status": "proved",
   "theorems": [
    "C60_equal_nearly",
    "C60_sign_of_zero",
    "C60_tolerance",
    "C60_bool"
   ],
   "note": "Binary64, all types (== exists for all but ComPlex and DirPlex)."
  },
  {
   "property": "C61",
   "status": "proved",
   "theorems": [
    "C61_product",
    "C61_sum",
    "C61_involutions"
   ],
   "note": "Binary64. Quotients do see it (C61_example)."
  },
  {
   "property": "C62",
   "status": "proved",
   "theorems": [
    "C62_log",
    "C62_small_angles_refuted",
    "C62_library"
   ],
   "note": "Binary64, every math library of the given accuracy (C62_library shows there are some). C62_small_angles_refuted: a small angle comes back as zero, so the angle has no relative accuracy."
  },
  {
   "property": "C63",
   "status": "proved",
   "theorems": [
    "C63_exp_log",
    "C63_sqrt",
    "C63_library"
   ],
   "note": "Binary64, every math library of the given accuracy (C63_library shows there are some)."
  },
  {
   "property": "C64",
   "status": "proved",
   "theorems": [
    "C64_powers",
    "C64_types",
    "C64_rotor",
    "C64_rounding"
   ],
   "note": "Reals for the identities, binary64 for the error. C64_rotor leaves out bivectors at most 2^-1074 long, which exp replaces by zero (C18)."
  },
  {
   "property": "C65",
   "status": "proved",
   "theorems": [
    "C65_state",
    "C65_text",
    "C65_sequence",
    "C65_put_double",
    "C65_put_double_changes"
   ],
   "note": "Stream model of Stream.v. C65_put_double_changes: priv::put(double) does not restore the state; the library itself calls it from no operator<<."
  },
  {
   "property": "C66",
   "status": "proved",
   "theorems": [
    "C66_product",
    "C66_sum",
    "C66_involutions",
    "C66_magnitude",
    "C66_validity",
    "C66_direction",
    "C66_inverse",
    "C66_functions",
    "C66_reverse",
    "C66_comparison"
   ],
   "note": "binary64, Libm arbitrary. Directions of MultiVector, inverses of ComPlex and MultiVector, exp of MultiVector and amplitudes are not covered. The functions of spinors assume images with all signs, those of zeros too."
  },
  {
   "property": "C67",
   "status": "proved",
   "theorems": [
    "C67_rotation"
   ],
   "note": "binary64; eps is a hypothesis on the library, met by correctly rounded functions (C58_library). The domain is that of C58."
  },
  {
   "property": "C68",
   "status": "proved",
   "theorems": [
    "C68_product",
    "C68_product_any",
    "C68_magSq",
    "C68_rotation",
    "C68_rotation_any",
    "C68_integers",
    "C68_integers_magSq",
    "C68_model",
    "C68_contraction"
   ],
   "note": "The model's own text, run on expressions, then evaluated by the relation `runs` of SpecFma.v. In C68_rotation the first product is stored before the second is formed. Overflow is excluded by the bound 2^1021."
  },
  {
   "property": "C69",
   "status": "proved",
   "theorems": [
    "C69_exact",
    "C69_type",
    "C69_error",
    "C69_finite",
    "C69_nan",
    "C69_nonfinite",
    "C69_no_overflow",
    "C69_same_meaning",
    "C69_associative",
    "C69_distributive",
    "C69_chain",
    "C69_integers",
    "C69_zero_sign",
    "C69_mirror"
   ],
   "note": "`eval` of SpecProg.v runs the model's operators; `meaning` is independent of them. The bounds `size`, `error`, `integer_bound` and `exponent_bound` are recursive functions of the expression only. C69_mirror covers dual only for an even number of reflections."
  },
  {
   "property": "C70",
   "status": "proved",
   "theorems": [
    "C70_sequence",
    "C70_lines",
    "C70_loop",
    "C70_terminates",
    "C70_printed",
    "C70_misaligned_refuted"
   ],
   "note": "The clients (`read_types`, `read_loop`, `write_all`) are in SpecFile.v and call the model's operators. C70_misaligned_refuted shows for every such vector that the condition on valid components cannot be dropped."
  },
  {
   "property": "C71",
   "status": "proved",
   "theorems": [
    "C71_number",
    "C71_number_back",
    "C71_number_near",
    "C71_exp",
    "C71_exp_silent",
    "C71_exp_values",
    "C71_demo",
    "C71_demo_values",
    "C71_demo_literals"
   ],
   "note": "Model in Cout.v, general notation in Stream.v. The literals of the program are proved to be the doubles nearest to the decimals written there; C71_demo_case is its whole output."
  },
  {
   "property": "C72",
   "status": "proved",
   "theorems": [
    "C72_product",
    "C72_product_range",
    "C72_sum",
    "C72_difference",
    "C72_unary",
    "C72_magnitude",
    "C72_direction",
    "C72_inverse",
    "C72_compare",
    "C72_zero_grade"
   ],
   "note": "By tracking the degree of every intermediate value; C72_zero_grade is a witness for the last sentence."
  },
  {
   "property": "C73",
   "status": "proved",
   "theorems": [
    "C73_squared_amplitude",
    "C73_amplitude",
    "C73_amplitude_even",
    "C73_inverse_complex",
    "C73_inverse_multivector",
    "C73_inverse_integers",
    "C73_singular_refuted"
   ],
   "note": "The accuracy of the library is the hypothesis complex_within (SpecAmp.v), met by correctly rounded functions (C73_example_library). C73_singular_refuted is the witness against the comment at g3func.hpp:496."
  },
  {
   "property": "C74",
   "status": "proved",
   "theorems": [
    "C74_reverse",
    "C74_dirverse",
    "C74_dual_left",
    "C74_dual_right",
    "C74_multivector",
    "C74_commute",
    "C74_cycle",
    "C74_associate",
    "C74_magSq",
    "C74_magSq_alone",
    "C74_ampSq_scalar",
    "C74_ampSq_trivector",
    "C74_ampSq_alone",
    "C74_infinite"
   ],
   "note": "Proved by running the model on symbolic numbers whose only rewriting is commutativity, signs and zeros (BitFacts.v). The exceptions are listed in SpecBit.v."
  },
  {
   "property": "C75",
   "status": "proved",
   "theorems": [
    "C75_fixed",
    "C75_operator",
    "C75_enote",
    "C75_fixed_copies",
    "C75_enote_copies",
    "C75_default_refuted"
   ],
   "note": "C75_default_refuted is the witness for the default number of digits; the other theorems hold for every other number of digits."
  },
  {
   "property": "C76",
   "status": "proved",
   "theorems": [
    "C76_inverse",
    "C76_direction",
    "C76_accepts",
    "C76_components",
    "C76_components_refuted",
    "C76_default_refuted",
    "C76_swapped_refuted",
    "C76_associative_refuted",
    "C76_range_refuted"
   ],
   "note": "Positive part for tolerances from 2^-47 (32 epsilon; the documentation suggests 64); the *_refuted theorems give the witnesses for the default tolerance, swapped arguments, associativity, components out of range, and the documented per-component rule."
  },
  {
   "property": "C77",
   "status": "proved",
   "theorems": [
    "C77_chain",
    "C77_transitive",
    "C77_symmetric",
    "C77_exchange",
    "C77_same_tolerance_refuted",
    "C77_zero_grade_refuted"
   ],
   "note": "Double is compared by its own overload and is left out; the refuted theorems show that the growth of the tolerance and the condition on zero grades are needed."
  },
  {
   "property": "C78",
   "status": "proved",
   "theorems": [
    "C78_unit",
    "C78_exact",
    "C78_rotors",
    "C78_attitude",
    "C78_rotates",
    "C78_plain_refuted"
   ],
   "note": "The loop is client code written from the library's functions; its length is an induction variable. The refuted theorem is about the same loop without direction."
  },
  {
   "property": "C79",
   "status": "proved",
   "theorems": [
    "C79_other_algebra",
    "C79_spinors",
    "C79_overloads",
    "C79_trivectors_refuted",
    "C79_vectors_refuted"
   ],
   "note": "The statement about trivectors and vectors is the binary64 form of C19_refuted: the documentation promises the exponential."
  },
  {
   "property": "C80",
   "status": "proved",
   "theorems": [
    "C80_monotone",
    "C80_covers",
    "C80_box",
    "C80_axis",
    "C80_unit_refuted",
    "C80_cosine_refuted",
    "C80_small_refuted"
   ],
   "note": "Exact bounds and not error bounds: root_exact shows that the rounded root of a rounded square is the number itself. The counterexamples mark where code that takes an arc cosine of a product of directions needs a clamp."
  },
  {
   "property": "C81",
   "status": "proved",
   "theorems": [
    "C81_program",
    "C81_product",
    "C81_sums",
    "C81_length",
    "C81_direction",
    "C81_inverse",
    "C81_product_refuted",
    "C81_difference_refuted",
    "C81_inverse_refuted"
   ],
   "note": "Also proves that each single component is valid, which isValid itself does not check for vectors and bivectors (C29). Expressions: PLeaf, PUni, PMul, PAdd, PSub as in C69."
  },
  {
   "property": "C82",
   "status": "proved",
   "theorems": [
    "C82_angle",
    "C82_power",
    "C82_interpolation"
   ],
   "note": "Exact real arithmetic. Exponents t other than 0 with |t| theta <= 2^-1074 are left out, where exp replaces the bivector by zero (C18). The hypothesis |a.b| <= (1 - 2^-52)|a||b| keeps to the branch of logG2 that uses atan2."
  },
  {
   "property": "C83",
   "status": "proved",
   "theorems": [
    "C83_mirrors",
    "C83_spinor",
    "C83_products"
   ],
   "note": "Exact real arithmetic. Mirroring is the geometric relation of SpecGeom.v, not a library function."
  },
  {
   "property": "C84",
   "status": "proved",
   "theorems": [
    "C84_sound",
    "C84_accurate",
    "C84_trivectors_refuted",
    "C84_vectors_refuted",
    "C84_ends",
    "C84_finite",
    "C84_null",
    "C84_fuel"
   ],
   "note": "Exact real arithmetic for C84_sound, C84_accurate and the two _refuted theorems; doubles for the rest. The first loop of the source has no bound and is modelled with fuel: None stands for a loop that has not ended, and C84_fuel says that more fuel does not change a result. The accuracy on doubles is not stated."
  },
  {
   "property": "C85",
   "status": "proved",
   "theorems": [
    "C85_exp_log",
    "C85_sqrt",
    "C85_inverse",
    "C85_typical",
    "C85_typical_inverse",
    "C85_unbalanced_refuted"
   ],
   "note": "The constants come from C58, C62 and C63 and are not sharp. The domain (root_domain, exp_domain) is that of those claims."
  },
  {
   "property": "C86",
   "status": "proved",
   "theorems": [
    "C86_spinor",
    "C86_vectors",
    "C86_log_exp",
    "C86_small",
    "C86_relative_refuted"
   ],
   "note": "The domain (log_domain, exp_domain, first_clear) is that of C58, C61 and C62; the constants are not sharp. C86_relative_refuted gives two vectors at an angle of 2^-40 whose computed angle is zero."
  },
  {
   "property": "C87",
   "status": "proved",
   "theorems": [
    "C87_log",
    "C87_sqrt",
    "C87_units",
    "C87_small_refuted"
   ],
   "note": "Bit-exact, no accuracy of the math library assumed. C87_small_refuted: the square of the root of a valid scalar below 4 epsilon is zero, with relative error one."
  },
  {
   "property": "C88",
   "status": "proved",
   "theorems": [
    "C88_turn",
    "C88_named",
    "C88_accepted",
    "C88_manual",
    "C88_manual_refuted"
   ],
   "note": "Uses the accuracy of exp (C58) and direction (C56) and the nearest doubles to the named angles (C47). C88_manual_refuted gives the plane for which the documented identity fails."
  },
  {
   "property": "C89",
   "status": "proved",
   "theorems": [
    "C89_rigid",
    "C89_moment",
    "C89_attitude",
    "C89_angle",
    "C89_readme",
    "C89_round_trip",
    "C89_sequence",
    "C89_angle_computed"
   ],
   "note": "Uses the accuracy of exp (C58), logG2 (C62), products (C57), and in real arithmetic C17, C20 and C22. C89_readme is for the three angles of the example, C89_sequence, C89_round_trip and C89_angle_computed for any number."
  },
  {
   "property": "C90",
   "status": "proved",
   "theorems": [
    "C90_one_description",
    "C90_expressions",
    "C90_sizes",
    "C90_directions",
    "C90_inverses",
    "C90_exponentials",
    "C90_log_root",
    "C90_nearlyEquals",
    "C90_default_plane_refuted",
    "C90_near_zero_refuted"
   ],
   "note": "seen is defined by the reference product of SpecCl.v, not by the operators of the library. Two refutations: C90_default_plane_refuted, C90_near_zero_refuted; with the plane turned, and away from zero, the statement holds (C90_log_root, C90_nearlyEquals)."
  },
  {
   "property": "C91",
   "status": "proved",
   "theorems": [
    "C91_all_logarithms",
    "C91_principal_logarithm",
    "C91_all_roots",
    "C91_minus_one"
   ],
   "note": "Complements C20 and C21, which say that the results are a logarithm and a root."
  },
  {
   "property": "C92",
   "status": "proved",
   "theorems": [
    "C92_spinors_rotate",
    "C92_two_spinors",
    "C92_exponentials",
    "C92_motions",
    "C92_motions_keep_distances"
   ],
   "note": "C22 gives one direction; the other (every rotation has a spinor) and the count are new. Maps are arbitrary Coq functions on vectors."
  },
  {
   "property": "C93",
   "status": "proved",
   "theorems": [
    "C93_exp_bivector",
    "C93_exp_spinor",
    "C93_log",
    "C93_root",
    "C93_cut",
    "C93_magnitude",
    "C93_direction",
    "C93_inverse",
    "C93_rotation",
    "C93_turn"
   ],
   "note": "Bivectors that are not zero but at most denorm_min long are excluded, as in C17. The last sentence is the cut of the principal values: not a defect, but the bounds for logG2 and sqrtG2 need their hypothesis."
  },
  {
   "property": "C94",
   "status": "proved",
   "theorems": [
    "C94_polar_form",
    "C94_amplitude",
    "C94_types",
    "C94_product",
    "C94_sign",
    "C94_zero_divisors"
   ],
   "note": "The sign in the product rule comes from the principal root; C94_sign shows that it is needed."
  },
  {
   "property": "C95",
   "status": "proved",
   "theorems": [
    "C95_motion",
    "C95_velocity"
   ],
   "note": "exp agrees with the curve wherever t*B is zero or longer than denorm_min; shorter ones are mapped to spinors without bivector part, as in C17."
  },
  {
   "property": "C96",
   "status": "proved",
   "theorems": [
    "C96_polar_exponential",
    "C96_logarithms",
    "C96_amplitude"
   ],
   "note": "exp is the power series of SpecExp.v, not exp(MultiVector) of the library, which computes something else (C19)."
  },
  {
   "property": "C97",
   "status": "partial",
   "theorems": [
    "C97_checked",
    "C97_once",
    "C97_main_header",
    "C97_any_order_refuted",
    "C97_any_order_partial",
    "C97_hidden_from_tests",
    "C97_repaired",
    "C97_published"
   ],
   "note": "The last part of the first sentence is false: g3opsAdd_same.hpp and g3opsSub_same.hpp use is::blade without including g3traits.hpp (C97_any_order_refuted). C97_any_order_partial says exactly which sequences are accepted; C97_repaired that adding the line to both files is enough. The rest holds. The declarations and the names they refer to, with overloads resolved, were extracted from the sources by a script and are listed with their lines in Headers.v; standard headers are taken to provide all of std."
  },
  {
   "property": "C98",
   "status": "proved",
   "theorems": [
    "C98_sums",
    "C98_differences",
    "C98_products",
    "C98_templates",
    "C98_involutions",
    "C98_functions",
    "C98_equality_and_text",
    "C98_files",
    "C98_left_operand",
    "C98_right_operand_refuted",
    "C98_gathered"
   ],
   "note": "Headers.v was extracted from the sources by a script, the overload sets of the model were written by hand; the theorems show that they agree. C98_right_operand_refuted: the file comments say that g3opsAdd_X.hpp also contains {...}+X, which is true of MultiVector only."
  },
  {
   "property": "C99",
   "status": "proved",
   "theorems": [
    "C99_powers",
    "C99_norm",
    "C99_add",
    "C99_inverse",
    "C99_small_angles_refuted"
   ],
   "note": "C99_small_angles_refuted: where the bivector part is below 2^-31 of the norm, logG2 returns no bivector part (C62), so no power rotates at all."
  },
  {
   "property": "C100",
   "status": "proved",
   "theorems": [
    "C100_exact",
    "C100_longer_way",
    "C100_doubles"
   ],
   "note": "C100_longer_way: where the inner product is negative the curve goes the longer way round, since the library does not replace b by -b."
  },
  {
   "property": "C101",
   "status": "proved",
   "theorems": [
    "C101_turn",
    "C101_opposite_refuted",
    "C101_short_refuted",
    "C101_doubles"
   ],
   "note": "C101_opposite_refuted: with the default plane e23, the turn from e1 to -e1 leaves e1 unchanged. C101_short_refuted: below the threshold of sqrtG2 the turn is the zero spinor."
  },
  {
   "property": "C102",
   "status": "proved",
   "theorems": [
    "C102_reflection",
    "C102_along_vector",
    "C102_on_plane",
    "C102_orthogonal",
    "C102_orthogonal_plane",
    "C102_projected_twice"
   ],
   "note": "C52 is the same in real arithmetic."
  },
  {
   "property": "C103",
   "status": "proved",
   "theorems": [
    "C103_any_number",
    "C103_linear",
    "C103_twice",
    "C103_angles"
   ],
   "note": "By induction on the list of normals, with C102 for one reflection and the isometry of exact reflections."
  }
 ]
}