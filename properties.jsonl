{"id": "C01", "title": "Every product overload is the geometric product", "statement": "For every pair of operand types (double and the nine G3 types) for which an operator* exists, the returned object denotes the product of the two operands in the real Clifford algebra Cl(3,0) (e_i*e_i = 1, e_i*e_j = -e_j*e_i), with exact arithmetic.", "quantifier": "all 99 operand-type pairs, all component values", "why_tests_cant": "A unit test evaluates each hand-written formula on a few literals; a transposed index or sign in one component of one of 99 formulas can cancel on chosen literals.", "anchors": ["include/g3opsMul_double.hpp: operator*", "include/g3opsMul_Scalar.hpp: operator*", "include/g3opsMul_Vector.hpp: operator*", "include/g3opsMul_BiVector.hpp: operator*", "include/g3opsMul_TriVector.hpp: operator*", "include/g3opsMul_Spinor.hpp: operator*", "include/g3opsMul_ImSpin.hpp: operator*", "include/g3opsMul_ComPlex.hpp: operator*", "include/g3opsMul_DirPlex.hpp: operator*", "include/g3opsMul_MultiVector.hpp: operator*", "include/g3_private.hpp: prodComm, prodAnti"]}
{"id": "C02", "title": "Every sum overload is the multivector sum", "statement": "For every pair of operand types for which an operator+ exists, in either order, the returned object denotes the sum of the two operands, with exact arithmetic.", "quantifier": "all operand-type pairs with an operator+, all component values", "why_tests_cant": "Tests use one literal per pair; the claim is an identity over all values and all type pairs.", "anchors": ["include/g3opsAdd_same.hpp: operator+", "include/g3opsAdd_Scalar.hpp: operator+", "include/g3opsAdd_Vector.hpp: operator+", "include/g3opsAdd_BiVector.hpp: operator+", "include/g3opsAdd_TriVector.hpp: operator+", "include/g3opsAdd_Spinor.hpp: operator+", "include/g3opsAdd_ImSpin.hpp: operator+", "include/g3opsAdd_ComPlex.hpp: operator+", "include/g3opsAdd_DirPlex.hpp: operator+", "include/g3opsAdd_MultiVector.hpp: operator+"]}
{"id": "C03", "title": "Every difference overload is the multivector difference", "statement": "For every pair of operand types for which a binary operator- exists, a - b denotes (a) minus (b), with exact arithmetic: adding b back gives a, and (b - a) = -(a - b).", "quantifier": "all operand-type pairs with a binary operator-, all component values", "why_tests_cant": "Six backward overloads return the negated result and the unit tests encode that same wrong expectation, so only an independent specification over all values can settle it.", "anchors": ["include/g3opsSub_same.hpp: operator-", "include/g3opsSub_Scalar.hpp: operator-", "include/g3opsSub_Vector.hpp: operator-", "include/g3opsSub_BiVector.hpp: operator-", "include/g3opsSub_TriVector.hpp: operator-", "include/g3opsSub_Spinor.hpp: operator-", "include/g3opsSub_ImSpin.hpp: operator-", "include/g3opsSub_ComPlex.hpp: operator-", "include/g3opsSub_DirPlex.hpp: operator-", "include/g3opsSub_MultiVector.hpp: operator-"]}
{"id": "C04", "title": "Associativity and distributivity of products across mixed types", "statement": "(a*b)*c and a*(b*c) denote the same multivector for every combination of operand types; a*(b+c) = a*b + a*c and (b+c)*a = b*a + c*a whenever the sum exists; 1*a = a*1 = a; scalar factors may be moved freely.", "quantifier": "all operand-type triples, all component values (exact arithmetic)", "why_tests_cant": "Needs 10^3 type triples and every value of up to 24 components.", "anchors": ["include/g3opsMul_double.hpp: operator*", "include/g3opsMul_Scalar.hpp: operator*", "include/g3opsMul_Vector.hpp: operator*", "include/g3opsMul_BiVector.hpp: operator*", "include/g3opsMul_TriVector.hpp: operator*", "include/g3opsMul_Spinor.hpp: operator*", "include/g3opsMul_ImSpin.hpp: operator*", "include/g3opsMul_ComPlex.hpp: operator*", "include/g3opsMul_DirPlex.hpp: operator*", "include/g3opsMul_MultiVector.hpp: operator*", "include/g3opsAdd_same.hpp: operator+", "include/g3opsAdd_Scalar.hpp: operator+", "include/g3opsAdd_Vector.hpp: operator+", "include/g3opsAdd_BiVector.hpp: operator+", "include/g3opsAdd_TriVector.hpp: operator+", "include/g3opsAdd_Spinor.hpp: operator+", "include/g3opsAdd_ImSpin.hpp: operator+", "include/g3opsAdd_ComPlex.hpp: operator+", "include/g3opsAdd_DirPlex.hpp: operator+", "include/g3opsAdd_MultiVector.hpp: operator+"]}
{"id": "C05", "title": "Basis elements satisfy the documented multiplication table", "statement": "The constants e0, e1, e2, e3, e23, e31, e12, e123 multiply as documented: vectors square to +1, bivectors and the trivector square to -1, distinct basis vectors anticommute, e1*e2=e12, e2*e3=e23, e3*e1=e31, e123=e1*e2*e3 (all cyclic orders), e23*e31*e12=1; and every multivector is the sum of its components times these basis elements, uniquely.", "quantifier": "all pairs of basis elements; all multivectors for the expansion", "why_tests_cant": "The expansion and uniqueness quantify over all component values.", "anchors": ["include/g3const.hpp: e0,e1,e2,e3,e23,e31,e12,e123", "include/g3opsMul_double.hpp: operator*", "include/g3opsMul_Scalar.hpp: operator*", "include/g3opsMul_Vector.hpp: operator*", "include/g3opsMul_BiVector.hpp: operator*", "include/g3opsMul_TriVector.hpp: operator*", "include/g3opsMul_Spinor.hpp: operator*", "include/g3opsMul_ImSpin.hpp: operator*", "include/g3opsMul_ComPlex.hpp: operator*", "include/g3opsMul_DirPlex.hpp: operator*", "include/g3opsMul_MultiVector.hpp: operator*"]}
{"id": "C06", "title": "Scalars, trivectors and ComPlex commute with everything", "statement": "If z is a double, Scalar, TriVector or ComPlex then z*x and x*z denote the same multivector for every x of every type; conversely a multivector that commutes with every vector is a ComPlex.", "quantifier": "all values z of the central types, all x of all ten types; for the converse all multivectors", "why_tests_cant": "Universal over values and types; the converse is not testable at all.", "anchors": ["include/g3opsMul_double.hpp: operator*", "include/g3opsMul_Scalar.hpp: operator*", "include/g3opsMul_Vector.hpp: operator*", "include/g3opsMul_BiVector.hpp: operator*", "include/g3opsMul_TriVector.hpp: operator*", "include/g3opsMul_Spinor.hpp: operator*", "include/g3opsMul_ImSpin.hpp: operator*", "include/g3opsMul_ComPlex.hpp: operator*", "include/g3opsMul_DirPlex.hpp: operator*", "include/g3opsMul_MultiVector.hpp: operator*", "include/g3type.hpp: ComPlex"]}
{"id": "C07", "title": "Involutions are involutive, commute, and compose into one another", "statement": "Applying negation, reverse, oddverse or dirverse twice returns the original object bit for bit; any two of them commute; reverse(oddverse(x)) = dirverse(x), and so on for the three pairs. Holds for IEEE doubles, including infinities, signed zeros and null values, for every type.", "quantifier": "all types, all IEEE double component values including NaN, infinities and signed zeros", "why_tests_cant": "Bit-level claim over 2^64 values per component.", "anchors": ["include/g3opsUni.hpp: operator-, reverse, oddverse, dirverse"]}
{"id": "C08", "title": "Involutions are the algebra's canonical (anti)automorphisms", "statement": "reverse(a*b) = reverse(b)*reverse(a), dirverse(a*b) = dirverse(b)*dirverse(a), oddverse(a*b) = oddverse(a)*oddverse(b), for every type pair; reverse fixes vectors, oddverse and dirverse negate them; and these conditions determine the three maps uniquely.", "quantifier": "all operand-type pairs, all component values (exact arithmetic)", "why_tests_cant": "Universally quantified algebraic identities over all types and values.", "anchors": ["include/g3opsUni.hpp: reverse, oddverse, dirverse", "include/g3opsMul_double.hpp: operator*", "include/g3opsMul_Scalar.hpp: operator*", "include/g3opsMul_Vector.hpp: operator*", "include/g3opsMul_BiVector.hpp: operator*", "include/g3opsMul_TriVector.hpp: operator*", "include/g3opsMul_Spinor.hpp: operator*", "include/g3opsMul_ImSpin.hpp: operator*", "include/g3opsMul_ComPlex.hpp: operator*", "include/g3opsMul_DirPlex.hpp: operator*", "include/g3opsMul_MultiVector.hpp: operator*"]}
{"id": "C09", "title": "dual is multiplication by e123", "statement": "dual(x) denotes e123*x = x*e123 for every type, dual(dual(x)) = -x, and (with exact duals) the grades map Scalar->TriVector, Vector->BiVector, BiVector->Vector, TriVector->Scalar.", "quantifier": "all types, all component values", "why_tests_cant": "Universal identity; README states different signs for bivectors and trivectors, which only a proof against the product settles.", "anchors": ["include/g3opsUni.hpp: dual", "README.md"]}
{"id": "C10", "title": "magSq is the scalar part of x*reverse(x) and is positive definite", "statement": "For every type, magSq(x) equals the scalar grade of x*reverse(x) and of reverse(x)*x, equals the sum of squares of all components, is never negative, and is 0 exactly when x is zero.", "quantifier": "all types, all component values (exact arithmetic)", "why_tests_cant": "Definiteness and identity for all values.", "anchors": ["include/g3func.hpp: magSq"]}
{"id": "C11", "title": "magnitude is a norm", "statement": "magnitude(x)^2 = magSq(x); magnitude(c*x) = |c|*magnitude(x); magnitude(x+y) <= magnitude(x)+magnitude(y) for objects of the same type; magnitude is multiplicative for products of vectors, bivectors, spinors and ImSpins; and for general multivectors |a*b|^2 <= 2 |a|^2 |b|^2.", "quantifier": "all types, all component values (exact arithmetic)", "why_tests_cant": "Inequalities over all values.", "anchors": ["include/g3func.hpp: magnitude, magSq"]}
{"id": "C12", "title": "ampSq is x*dirverse(x), always a ComPlex, and multiplicative", "statement": "For every type, ampSq(x) denotes x*dirverse(x) = dirverse(x)*x, and ampSq(a*b) = ampSq(a)*ampSq(b).", "quantifier": "all types and type pairs, all component values (exact arithmetic)", "why_tests_cant": "Universal identity.", "anchors": ["include/g3func.hpp: ampSq"]}
{"id": "C13", "title": "amplitude squares to ampSq", "statement": "amplitude(x)*amplitude(x) = ampSq(x) for every type, choosing the principal square root (non-negative scalar part; non-negative trivector part when the scalar part is zero).", "quantifier": "all types, all component values (exact arithmetic)", "why_tests_cant": "Involves a square root with branch cuts over all values.", "anchors": ["include/g3func.hpp: amplitude"]}
{"id": "C14", "title": "inverse of a blade is a two-sided inverse", "statement": "For each blade type, if x is non-zero then x*inverse(x) = inverse(x)*x = 1; if x is zero the result is not valid.", "quantifier": "all four blade types, all component values (exact arithmetic); zero for IEEE doubles with any sign of zero", "why_tests_cant": "Universal; the zero branch goes through inf*0.", "anchors": ["include/g3func.hpp: inverse(Blade)"]}
{"id": "C15", "title": "inverse of ComPlex and MultiVector is a two-sided inverse whenever it is valid", "statement": "If inverse<ComPlex>(z) or inverse<MultiVector>(m) is valid then it is a two-sided inverse; a null is returned whenever no inverse exists; the result is valid exactly when the documented magnitude threshold is exceeded.", "quantifier": "all ComPlex and MultiVector values (exact arithmetic)", "why_tests_cant": "Singular multivectors form a measure-zero cone no random test hits.", "anchors": ["include/g3func.hpp: inverse<ComPlex>, inverse<MultiVector>"]}
{"id": "C16", "title": "direction and magnitude decompose every non-zero blade", "statement": "pairMagDirFrom(x) returns (m,d) with m >= 0, m*d = x and magnitude(d) = 1 when x is non-zero; direction(x) = d; for zero x the direction is null.", "quantifier": "all blades (exact arithmetic), with IEEE counterexamples recorded separately", "why_tests_cant": "Universal; over/underflow of the squared magnitude breaks it for representable values.", "anchors": ["include/g3func.hpp: pairMagDirFrom, direction"]}
{"id": "C17", "title": "exp(BiVector) is the exponential series and a rotor", "statement": "exp(B) equals the sum over n of B^n/n! in the algebra; it has unit magnitude; exp(B)*exp(-B) = 1; exp((s+t)B) = exp(sB)*exp(tB); exp(zero) = 1.", "quantifier": "all bivectors (exact arithmetic)", "why_tests_cant": "An infinite series for all real arguments.", "anchors": ["include/g3func.hpp: exp(BiVector)"]}
{"id": "C18", "title": "exp(Spinor) is the exponential series", "statement": "exp(S) equals the sum over n of S^n/n!, and exp(S)*exp(-S) = 1.", "quantifier": "all spinors (exact arithmetic)", "why_tests_cant": "An infinite series for all real arguments.", "anchors": ["include/g3func.hpp: exp(Spinor)"]}
{"id": "C19", "title": "exp(MultiVector) is the exponential series", "statement": "exp(M) equals the sum over n of M^n/n!, for every multivector M.", "quantifier": "all multivectors (exact arithmetic)", "why_tests_cant": "The function is documented by its author as suspect; only a proof separates the arguments for which it is right from those for which it is wrong.", "anchors": ["include/g3func.hpp: exp(MultiVector), priv::sync"]}
{"id": "C20", "title": "logG2 inverts exp on spinors", "statement": "For a valid spinor s with magnitude above the documented threshold, exp(logG2(s)) = s when s is away from the real axis, and is within a stated relative error of s otherwise; the scalar part of the result is ln|s| and the bivector part has magnitude at most pi.", "quantifier": "all spinors, all plane directions supplied for the ambiguous case (exact arithmetic)", "why_tests_cant": "Branches at thresholds of one machine epsilon are not reachable by sampling.", "anchors": ["include/g3func.hpp: logG2"]}
{"id": "C21", "title": "sqrtG2 is a square root", "statement": "For a valid spinor s above the documented threshold sqrtG2(s)*sqrtG2(s) = s (up to the same branch error); below the threshold it returns zero; for invalid s it returns null.", "quantifier": "all spinors, all supplied plane directions (exact arithmetic)", "why_tests_cant": "Universal with thresholds.", "anchors": ["include/g3func.hpp: sqrtG2"]}
{"id": "C22", "title": "Spinor sandwich products rotate vectors", "statement": "For a spinor s, s*v*reverse(s) has zero trivector part; if magnitude(s)=1 it preserves dot products, magnitudes and orientation; successive sandwiches compose as the product spinor; exp(B/2)*v*reverse(exp(B/2)) rotates v in the plane of B by the angle |B|, leaving the perpendicular part fixed.", "quantifier": "all spinors, vectors and bivectors (exact arithmetic)", "why_tests_cant": "Universal over rotations and vectors.", "anchors": ["include/g3opsMul_Spinor.hpp: operator*", "README.md"]}
{"id": "C23", "title": "The cardinal-sine helper is accurate for the angles it is used with", "statement": "For every angle >= 0 used by exp(MultiVector), the internal sin(x)/x evaluation differs from sin(x)/x (1 at zero) by at most 2e-28.", "quantifier": "all non-negative angles (exact arithmetic)", "why_tests_cant": "A uniform error bound over an interval.", "anchors": ["include/g3func.hpp: priv::sync"]}
{"id": "C24", "title": "Subscript access is total and maps indices to components", "statement": "For every std::size_t index, operator[] of every type returns without reading outside its storage; in-range indices return the component documented for that index; out-of-range indices return NaN.", "quantifier": "all types, all index values, all component values", "why_tests_cant": "2^64 indices; absence of out-of-bounds reads is not observable by a test.", "anchors": ["include/g3type.hpp: operator[]"]}
{"id": "C25", "title": "Writing through MultiVector subscripts changes exactly one component", "statement": "After m[i]=x, m[i] reads x and every other component is unchanged, for every index.", "quantifier": "all indices, all values", "why_tests_cant": "Frame condition over all indices and values.", "anchors": ["include/g3type.hpp: MultiVector::operator[]"]}
{"id": "C26", "title": "MultiVector constructors embed every type without loss", "statement": "Each MultiVector constructor keeps all components of its argument bit for bit and zeroes the others; Spinor+ImSpin and ComPlex+DirPlex parts rebuild the original multivector bit for bit, for the constructor, and for operator+ .", "quantifier": "all types, all IEEE values", "why_tests_cant": "Universal over values and types.", "anchors": ["include/g3type.hpp: MultiVector constructors", "include/g3opsAdd_same.hpp: operator+", "include/g3opsAdd_Scalar.hpp: operator+", "include/g3opsAdd_Vector.hpp: operator+", "include/g3opsAdd_BiVector.hpp: operator+", "include/g3opsAdd_TriVector.hpp: operator+", "include/g3opsAdd_Spinor.hpp: operator+", "include/g3opsAdd_ImSpin.hpp: operator+", "include/g3opsAdd_ComPlex.hpp: operator+", "include/g3opsAdd_DirPlex.hpp: operator+", "include/g3opsAdd_MultiVector.hpp: operator+"]}
{"id": "C27", "title": "ComPlex is isomorphic to std::complex", "statement": "ComPlex::from and the conversion operator are mutually inverse bit for bit; sums, differences, products, reverse/oddverse (as conjugation), magSq and inverse correspond to those of complex numbers.", "quantifier": "all ComPlex values", "why_tests_cant": "Universal algebraic identity.", "anchors": ["include/g3type.hpp: ComPlex::from, operator std::complex<double>"]}
{"id": "C28", "title": "zero and one are the additive and multiplicative identities", "statement": "zero<T>() + x = x, zero<T>()*x = 0; one<T>() * x = x * one<T>() = x for the types documented as identity multiplier.", "quantifier": "all types T, all x of every type", "why_tests_cant": "Universal over values and type pairs; generic templates give surprising values for ImSpin and DirPlex.", "anchors": ["include/g3const.hpp: zero, one"]}
{"id": "C29", "title": "null instances are never valid and zero/one/basis instances always are", "statement": "isValid(null<T>()) is false for every type; every component of null<T>() is NaN; isValid(zero<T>()), isValid(one<T>()) and isValid of each basis constant are true; null never compares equal or nearly equal to anything, itself included.", "quantifier": "all types; all right-hand operands and tolerances", "why_tests_cant": "The comparison part ranges over all values and tolerances.", "anchors": ["include/g3const.hpp: null, zero, one", "include/g3validity.hpp: isValid", "include/g3compare.hpp"]}
{"id": "C30", "title": "isValid(double) is exactly: zero or normal", "statement": "isValid(x) holds exactly for finite x with x = 0 or |x| >= 2^-1022; negation, and the four involutions preserve validity.", "quantifier": "all 2^64 doubles", "why_tests_cant": "Exhaustive over doubles.", "anchors": ["include/g3validity.hpp: isValid"]}
{"id": "C31", "title": "isValid of an object checks all its components", "statement": "isValid(x) is true exactly when every component of x is a valid double.", "quantifier": "all types, all IEEE values", "why_tests_cant": "The implementation checks one component per grade, tests only use all-null instances.", "anchors": ["include/g3validity.hpp: isValid"]}
{"id": "C32", "title": "Null operands make results invalid", "statement": "Every sum, difference and product overload, involution, dual, magSq and inverse applied to a null operand returns an object that isValid rejects, whatever the other operand.", "quantifier": "all overloads, all types, all IEEE values of the other operand", "why_tests_cant": "The null-object paradigm must hold along every path for every partner value (0*NaN, inf*NaN...).", "anchors": ["include/g3opsMul_double.hpp: operator*", "include/g3opsMul_Scalar.hpp: operator*", "include/g3opsMul_Vector.hpp: operator*", "include/g3opsMul_BiVector.hpp: operator*", "include/g3opsMul_TriVector.hpp: operator*", "include/g3opsMul_Spinor.hpp: operator*", "include/g3opsMul_ImSpin.hpp: operator*", "include/g3opsMul_ComPlex.hpp: operator*", "include/g3opsMul_DirPlex.hpp: operator*", "include/g3opsMul_MultiVector.hpp: operator*", "include/g3opsAdd_same.hpp: operator+", "include/g3opsAdd_Scalar.hpp: operator+", "include/g3opsAdd_Vector.hpp: operator+", "include/g3opsAdd_BiVector.hpp: operator+", "include/g3opsAdd_TriVector.hpp: operator+", "include/g3opsAdd_Spinor.hpp: operator+", "include/g3opsAdd_ImSpin.hpp: operator+", "include/g3opsAdd_ComPlex.hpp: operator+", "include/g3opsAdd_DirPlex.hpp: operator+", "include/g3opsAdd_MultiVector.hpp: operator+", "include/g3opsSub_same.hpp: operator-", "include/g3opsSub_Scalar.hpp: operator-", "include/g3opsSub_Vector.hpp: operator-", "include/g3opsSub_BiVector.hpp: operator-", "include/g3opsSub_TriVector.hpp: operator-", "include/g3opsSub_Spinor.hpp: operator-", "include/g3opsSub_ImSpin.hpp: operator-", "include/g3opsSub_ComPlex.hpp: operator-", "include/g3opsSub_DirPlex.hpp: operator-", "include/g3opsSub_MultiVector.hpp: operator-", "include/g3validity.hpp: isValid"]}
{"id": "C33", "title": "Functions return null, never garbage, on invalid input", "statement": "exp(BiVector), exp(Spinor), logG2, sqrtG2, direction and inverse return an invalid object whenever some component of the argument is NaN.", "quantifier": "all arguments with at least one NaN component, whatever the math library returns", "why_tests_cant": "Interaction of first-component-only validity tests with branch logic.", "anchors": ["include/g3func.hpp: exp, logG2, sqrtG2, direction, inverse"]}
{"id": "C34", "title": "nearlyEqualsAbs is sound, symmetric and reflexive", "statement": "When it returns true both arguments are valid and the exact |a-b| is below the tolerance; it is symmetric; it is true for a=b valid and tolerance>0; it is true whenever the exact |a-b| is below the tolerance by more than half an ulp.", "quantifier": "all pairs of doubles and all tolerances", "why_tests_cant": "2^192 triples.", "anchors": ["include/g3compare.hpp: nearlyEqualsAbs"]}
{"id": "C35", "title": "nearlyEquals is reflexive on valid objects and false on invalid ones", "statement": "For every type nearlyEquals(x,x,tol) is true if every component of x is valid and tol>0, and nearlyEquals(x,y,tol) is false if any component of x or y is invalid.", "quantifier": "all types, all IEEE values and tolerances", "why_tests_cant": "Overflow and underflow of internal squared sums must be covered.", "anchors": ["include/g3compare.hpp: nearlyEquals"]}
{"id": "C36", "title": "nearlyEquals with a non-positive or NaN tolerance is always false", "statement": "If tol <= 0 or tol is NaN then nearlyEquals(x,y,tol), nearlyEqualsAbs and nearlyEqualsRel return false.", "quantifier": "all types, all IEEE values, all such tolerances", "why_tests_cant": "Universal.", "anchors": ["include/g3compare.hpp"]}
{"id": "C37", "title": "nearlyEqualsRel is a sound relative comparison", "statement": "When it returns true for a reference of normal scale, |a/b - 1| is below the tolerance up to rounding (an explicit bound); for tiny references the difference is below the tolerance absolutely. It is not symmetric.", "quantifier": "all pairs of doubles and tolerances", "why_tests_cant": "2^192 triples.", "anchors": ["include/g3compare.hpp: nearlyEqualsRel"]}
{"id": "C38", "title": "Vector nearlyEquals is a sound relative comparison", "statement": "When nearlyEquals(u,v,tol) returns true for arrays, the exact ratio |u-v|/|v| is below tol up to rounding, provided no intermediate overflow/underflow occurs; outside that range documented counterexamples exist.", "quantifier": "all arrays of doubles of any positive length, all tolerances", "why_tests_cant": "Overflow of the squared reference makes the test accept vectors that differ by tens of percent.", "anchors": ["include/g3compare.hpp: nearlyEquals(std::array)"]}
{"id": "C39", "title": "operator== is componentwise IEEE equality", "statement": "operator== is true exactly when all components are IEEE-equal; it is symmetric and transitive, reflexive exactly on NaN-free objects; documented bit-wise identity fails only on signed zeros and NaNs.", "quantifier": "all types, all IEEE values", "why_tests_cant": "Universal over bit patterns.", "anchors": ["include/g3compare.hpp: operator=="]}
{"id": "C40", "title": "Redirected and commuted overloads give bit-identical results", "statement": "a+b and b+a are bit-identical for every type pair; a Scalar operand gives the same bits as the equivalent double; scalar multiples commute bit-identically; b-a is -(a-b) up to the sign of zero for correct pairs.", "quantifier": "all type pairs, all IEEE values", "why_tests_cant": "Bit-level equality over all doubles.", "anchors": ["include/g3opsAdd_same.hpp: operator+", "include/g3opsAdd_Scalar.hpp: operator+", "include/g3opsAdd_Vector.hpp: operator+", "include/g3opsAdd_BiVector.hpp: operator+", "include/g3opsAdd_TriVector.hpp: operator+", "include/g3opsAdd_Spinor.hpp: operator+", "include/g3opsAdd_ImSpin.hpp: operator+", "include/g3opsAdd_ComPlex.hpp: operator+", "include/g3opsAdd_DirPlex.hpp: operator+", "include/g3opsAdd_MultiVector.hpp: operator+", "include/g3opsMul_double.hpp: operator*", "include/g3opsMul_Scalar.hpp: operator*", "include/g3opsMul_Vector.hpp: operator*", "include/g3opsMul_BiVector.hpp: operator*", "include/g3opsMul_TriVector.hpp: operator*", "include/g3opsMul_Spinor.hpp: operator*", "include/g3opsMul_ImSpin.hpp: operator*", "include/g3opsMul_ComPlex.hpp: operator*", "include/g3opsMul_DirPlex.hpp: operator*", "include/g3opsMul_MultiVector.hpp: operator*", "include/g3opsSub_same.hpp: operator-", "include/g3opsSub_Scalar.hpp: operator-", "include/g3opsSub_Vector.hpp: operator-", "include/g3opsSub_BiVector.hpp: operator-", "include/g3opsSub_TriVector.hpp: operator-", "include/g3opsSub_Spinor.hpp: operator-", "include/g3opsSub_ImSpin.hpp: operator-", "include/g3opsSub_ComPlex.hpp: operator-", "include/g3opsSub_DirPlex.hpp: operator-", "include/g3opsSub_MultiVector.hpp: operator-"]}
{"id": "C41", "title": "Rounding error of every product is bounded", "statement": "For every product overload on IEEE doubles, if no intermediate overflows, each component of the computed result differs from the exact geometric product by at most a small explicit multiple of 2^-53 times the sum of absolute values of its terms, plus an explicit underflow term.", "quantifier": "all type pairs, all finite doubles without overflow", "why_tests_cant": "Universal numerical error bound.", "anchors": ["include/g3opsMul_double.hpp: operator*", "include/g3opsMul_Scalar.hpp: operator*", "include/g3opsMul_Vector.hpp: operator*", "include/g3opsMul_BiVector.hpp: operator*", "include/g3opsMul_TriVector.hpp: operator*", "include/g3opsMul_Spinor.hpp: operator*", "include/g3opsMul_ImSpin.hpp: operator*", "include/g3opsMul_ComPlex.hpp: operator*", "include/g3opsMul_DirPlex.hpp: operator*", "include/g3opsMul_MultiVector.hpp: operator*"]}
{"id": "C42", "title": "Arithmetic on small integers is exact", "statement": "If all components of the operands are integers of absolute value at most 2^24, every sum, difference and product overload and magSq returns exactly the components of the exact result.", "quantifier": "all type pairs, all such integer components", "why_tests_cant": "Universal over 2^25 values per component.", "anchors": ["include/g3opsMul_double.hpp: operator*", "include/g3opsMul_Scalar.hpp: operator*", "include/g3opsMul_Vector.hpp: operator*", "include/g3opsMul_BiVector.hpp: operator*", "include/g3opsMul_TriVector.hpp: operator*", "include/g3opsMul_Spinor.hpp: operator*", "include/g3opsMul_ImSpin.hpp: operator*", "include/g3opsMul_ComPlex.hpp: operator*", "include/g3opsMul_DirPlex.hpp: operator*", "include/g3opsMul_MultiVector.hpp: operator*", "include/g3opsAdd_same.hpp: operator+", "include/g3opsAdd_Scalar.hpp: operator+", "include/g3opsAdd_Vector.hpp: operator+", "include/g3opsAdd_BiVector.hpp: operator+", "include/g3opsAdd_TriVector.hpp: operator+", "include/g3opsAdd_Spinor.hpp: operator+", "include/g3opsAdd_ImSpin.hpp: operator+", "include/g3opsAdd_ComPlex.hpp: operator+", "include/g3opsAdd_DirPlex.hpp: operator+", "include/g3opsAdd_MultiVector.hpp: operator+", "include/g3opsSub_same.hpp: operator-", "include/g3opsSub_Scalar.hpp: operator-", "include/g3opsSub_Vector.hpp: operator-", "include/g3opsSub_BiVector.hpp: operator-", "include/g3opsSub_TriVector.hpp: operator-", "include/g3opsSub_Spinor.hpp: operator-", "include/g3opsSub_ImSpin.hpp: operator-", "include/g3opsSub_ComPlex.hpp: operator-", "include/g3opsSub_DirPlex.hpp: operator-", "include/g3opsSub_MultiVector.hpp: operator-"]}
{"id": "C43", "title": "Stream extraction yields a valid object exactly when all its numbers are readable and valid", "statement": "After operator>>, all components are initialised, whatever they held before; the object isValid exactly when every required number was parsed and is a valid double, in which case the components are those numbers in documented order and exactly those tokens were consumed; otherwise the failing grade is entirely NaN.", "quantifier": "all input texts, all prior contents (including uninitialised memory), all types", "why_tests_cant": "All texts.", "anchors": ["include/g3io.hpp: operator>>"]}
{"id": "C44", "title": "Text written by operator<<, fixed and enote contains exactly the components in order", "statement": "Splitting the output at white space gives exactly one token per component, in the documented order, whatever digits are requested; so it can be read back component by component.", "quantifier": "all types, all values, all digit counts", "why_tests_cant": "Universal; a width overflow could glue adjacent numbers together.", "anchors": ["include/g3io.hpp: put, fixed, enote, operator<<"]}
{"id": "C45", "title": "fixed() output is column aligned", "statement": "fixed(x, lead, frac) has exactly lead+frac+3 characters per number when the rounded magnitude has at most lead digits, and never fewer; all components of an object align.", "quantifier": "all values, all digit counts below the int range", "why_tests_cant": "Universal over values and widths.", "anchors": ["include/g3io.hpp: DoubleFormat, fixed"]}
{"id": "C46", "title": "enote() text reads back to the same value when 17 significant digits are requested", "statement": "For every valid double, reading enote(x, n) gives x exactly when 16 <= n < 2^31; with fewer digits (the default is n = 15) the value read differs from x by at most 10^-n relative, away from the ends of the range, and is not always x although documented as full precision.", "quantifier": "all valid doubles and objects of them, all n, any text that follows", "why_tests_cant": "Decimal/binary round trip over all doubles.", "anchors": ["include/g3io.hpp: enote, operator>>"]}
{"id": "C47", "title": "pi constants are the nearest doubles", "statement": "pi, piHalf, piQtr, turnFull, turnHalf, turnQtr are the doubles nearest to the exact real multiples of the circle constant.", "quantifier": "the six constants against all other doubles", "why_tests_cant": "Nearest among all doubles of a transcendental number.", "anchors": ["include/g3const.hpp: pi, piHalf, piQtr, turnFull, turnHalf, turnQtr"]}
{"id": "C48", "title": "Pure functions have no visible side effects", "statement": "Evaluating any arithmetic or mathematical function writes nothing to standard output.", "quantifier": "all functions, all arguments", "why_tests_cant": "Tests do not observe stdout of library calls; exp(MultiVector) prints debugging text.", "anchors": ["include/g3func.hpp: exp(MultiVector)"]}
{"id": "C49", "title": "Product result types are minimal", "statement": "The declared result type of every operator* overload has exactly the grades that can occur in the product of its operand types: each declared grade is non-zero for some operands, and no other grade is non-zero for any.", "quantifier": "all operand type pairs, all grades, all operand values", "why_tests_cant": "Absence of a grade is a claim about all operands.", "anchors": ["include/g3opsMul.hpp: operator*"]}
{"id": "C50", "title": "logG2 inverts exp", "statement": "logG2(exp(S)) = S in exact arithmetic for every spinor S with rotation angle strictly between 0 and pi (outside the code's epsilon bands), whatever plane is given for the ambiguous case.", "quantifier": "all spinors with angle in (0,pi), all alternative planes", "why_tests_cant": "Continuum of spinors and planes.", "anchors": ["include/g3func.hpp: logG2", "include/g3func.hpp: exp(Spinor)"]}
{"id": "C51", "title": "Square root of a vector product is a rotor", "statement": "q = sqrtG2(b*a) rotates a into the direction of b: q a reverse(q) = |a|^2 b, with zero trivector part.", "quantifier": "all pairs of non-parallel vectors", "why_tests_cant": "Continuum of vector pairs.", "anchors": ["include/g3func.hpp: sqrtG2", "include/g3opsMul.hpp: operator*"]}
{"id": "C52", "title": "Reflections and projections by inverse", "statement": "-(n*v*inverse(n)) is the mirror image of v in the plane with normal n; (v*n).theSca*inverse(n) and (v*n).theBiv*inverse(n) are the parts of v along and across n; likewise for a bivector plane.", "quantifier": "all vectors v, all non-zero n or planes", "why_tests_cant": "Continuum of vectors.", "anchors": ["include/g3func.hpp: inverse", "include/g3opsMul.hpp: operator*"]}
{"id": "C53", "title": "Products are dot, cross and triple products", "statement": "The parts of Vector*Vector, Vector*Vector*Vector, Vector*BiVector, BiVector*Vector, BiVector*BiVector and of products with TriVectors are the classical dot, cross and scalar/vector triple products.", "quantifier": "all operands", "why_tests_cant": "Continuum of operands.", "anchors": ["include/g3opsMul.hpp: operator*"]}
{"id": "C54", "title": "Bounded operands, bounded results", "statement": "Products, sums, differences and squared magnitudes of values whose components are at most 2^e (2^ea, 2^eb) in absolute value are finite and at most 2^(ea+eb+3), 2^(e+1), 2^(2e+3).", "quantifier": "all operand types, all doubles, all exponents for which the bound stays in range", "why_tests_cant": "All doubles of all magnitudes, every pair of types.", "anchors": ["include/g3opsMul.hpp: operator*", "include/g3opsAdd.hpp: operator+", "include/g3opsSub.hpp: operator-", "include/g3func.hpp: magSq"]}
{"id": "C55", "title": "Accuracy of magnitude", "statement": "magSq is never negative; where finite it is the exact sum of squares to 9 units of roundoff; magnitude is the exact norm to 8 units of roundoff; components of 2^512 make magSq infinite, components up to 2^-538 make it zero.", "quantifier": "all types, all doubles", "why_tests_cant": "Floating-point error over all doubles.", "anchors": ["include/g3func.hpp: magSq", "include/g3func.hpp: magnitude"]}
{"id": "C56", "title": "Accuracy of direction and inverse", "statement": "For norms between 2^-480 and 2^480, direction and the inverses of blades have no infinities, each component is within 14 units of roundoff of the exact value, directions are of unit length to 15 units, products of a blade with its inverse are 1 to 43 units. Outside, the inverse of a normal non-zero blade is infinite/NaN or zero.", "quantifier": "all types, all doubles", "why_tests_cant": "Floating-point error over all doubles.", "anchors": ["include/g3func.hpp: direction", "include/g3func.hpp: inverse"]}
{"id": "C57", "title": "Accuracy of products in norm", "statement": "A product without infinities is within 26 units of roundoff times the product of the norms; a rotated vector s*v*reverse(s) within 53 units, trivector part included; a product of n spinors within (1+26u)^n - 1.", "quantifier": "all types, all doubles, lists of any length", "why_tests_cant": "Unbounded number of factors, floating-point error over all doubles.", "anchors": ["include/g3opsMul.hpp: operator*", "include/g3opsUni.hpp: reverse"]}
{"id": "C58", "title": "Accuracy of the exponential of bivectors and spinors", "statement": "With a math library whose sine and cosine err by at most eps and whose exponential errs by at most eps relatively, exp of a bivector of norm between 2^-480 and 2^480 whose first component is zero, or normal and not below 2^-1000 of the norm, is finite and within 2 eps + 16 u (1 + norm) of the true exponential, u = 2^-53; exp of a spinor with scalar part between -600 and 600 is within e^scalar (4 eps + 20 u (1 + norm)) plus underflow. With a smaller first component there are valid bivectors of norm 2 whose exponential is returned as 1, and others for which it is null.", "quantifier": "all bivectors and spinors of doubles in the domain, all math libraries of the stated accuracy", "why_tests_cant": "Floating-point error over all doubles and all libraries; the tests compare a few arguments and none with a tiny first component.", "anchors": ["include/g3func.hpp: exp", "include/g3func.hpp: pairMagDirFrom", "include/g3validity.hpp: isValid"]}
{"id": "C59", "title": "Type traits and the overload sets they constrain", "statement": "is::blade holds of exactly the G3 types all of whose values are blades of one grade, i.e. multiples of products of mutually orthogonal vectors; each is::X holds of X only. For unary minus, same-type sums and differences, magSq, isValid, nearlyEquals, fixed, enote, extraction and inverse no argument type leaves more than one viable overload, and the missing ones are listed exactly.", "quantifier": "all types, all values of each type", "why_tests_cant": "Tests check the trait on named types; that every value of the type is a blade, and that no value-independent classification else fits, quantifies over all values.", "anchors": ["include/g3traits.hpp: is::blade", "include/g3traits.hpp: is::MultiVector", "include/g3func.hpp: inverse", "include/g3io.hpp: fixed"]}
{"id": "C60", "title": "Comparisons respect equality, signs of zeros and tolerances", "statement": "Valid objects that compare equal by operator== compare nearly equal at every positive tolerance; nearlyEquals gives the same answer when zeros change sign; what is nearly equal at a tolerance is so at every larger one.", "quantifier": "all types, all doubles, all tolerances", "why_tests_cant": "Two independent comparison functions over all doubles, including infinities and both zeros.", "anchors": ["include/g3compare.hpp: nearlyEquals", "include/g3compare.hpp: operator=="]}
{"id": "C61", "title": "Arithmetic does not see the sign of zero", "statement": "Operands that differ only in the signs of zeros have sums, differences, products, negations, reverses, oddverses, dirverses, duals and squared magnitudes that differ only in the signs of zeros.", "quantifier": "all types and overloads, all doubles including NaN and infinities", "why_tests_cant": "All overloads over all doubles.", "anchors": ["include/g3opsMul.hpp: operator*", "include/g3opsAdd.hpp: operator+", "include/g3opsSub.hpp: operator-", "include/g3opsUni.hpp: reverse", "include/g3func.hpp: magSq"]}
{"id": "C62", "title": "Accuracy of the logarithm of spinors", "statement": "With a math library whose log errs by at most eps (1 + |log x|) and whose atan2 errs by at most eps, logG2 of a spinor of norm N between 2^-51 and 2^480 whose scalar and first bivector component are zero or normal is finite; its scalar part is within eps (2 + |ln N|) + 9 u of ln N; its bivector part is at most pi + eps + 64 u long; and its true exponential is within N (eps (4 + 2 |ln N|) + 2^-22) of the spinor, or within N (eps (4 + 2 |ln N|) + 128 u) if the bivector part is at least 2^-23 N. Where the bivector part is at most 2^-31 N it is lost: the logarithm then has no bivector part, or a half turn in the plane supplied.", "quantifier": "all spinors and planes of doubles in the domain, all math libraries of the stated accuracy", "why_tests_cant": "Floating-point error over all doubles and all libraries; the tests do not look at angles near zero or a half turn, where half of the digits are lost.", "anchors": ["include/g3func.hpp: logG2", "include/g3func.hpp: pairMagDirFrom", "include/g3const.hpp: turnHalf"]}
{"id": "C63", "title": "Accuracy of the square root of spinors, and of exp after log", "statement": "With a math library whose sine, cosine, exponential, log and atan2 err by at most eps <= 2^-40, and first bivector components not below 2^-900 of the norm, exp(logG2(s)) is finite and within N (eps (9 + 2 |ln N|) + 2^-21) of s, and sqrtG2(s) is finite, its square is within N (eps (13 + 2 |ln N|) + 2^-21) of s and its scalar part is not below - sqrt N (5 eps + 128 u), so it is the principal root up to rounding. If the bivector part is at least 2^-23 N, the term 2^-21 may be replaced by 256 u.", "quantifier": "all spinors and planes of doubles in the domain, all math libraries of the stated accuracy", "why_tests_cant": "Accumulated floating-point error over all doubles and all libraries; the tests check a few spinors of norm near 1.", "anchors": ["include/g3func.hpp: sqrtG2", "include/g3func.hpp: logG2", "include/g3func.hpp: exp"]}
{"id": "C64", "title": "Squares and cubes", "statement": "sq and cube exist for exactly those types whose values are closed under the geometric product (double, Scalar, Spinor, ComPlex, MultiVector) and are the second and third power with respect to it; a rotor squared or cubed is the rotor of twice or three times the bivector. On binary64 a finite square is within 26 u N^2 + 26 eta and a finite cube within 105 u N^3 + 53 eta (1 + N) of the exact power, N the norm, u = 2^-53, eta = 2^-1075.", "quantifier": "all types, all values over the reals; all doubles with a finite result", "why_tests_cant": "Polynomial identities over all values, and floating-point error over all doubles; which types the templates accept is not visible at run time.", "anchors": ["include/g3func.hpp: sq", "include/g3func.hpp: cube"]}
{"id": "C65", "title": "Output leaves the stream as it was", "statement": "operator<< of every type changes notation, precision, fill and adjustment of the stream in no case and uses up the width; the text depends on the value and on width, fill and adjustment only, not on notation, precision or what was written before; objects inserted one after the other give their texts one after the other. priv::put of a double writes one fixed-point number but leaves the stream in fixed notation with its own precision.", "quantifier": "all types, values, stream states and formats", "why_tests_cant": "All states of a stream and all doubles; the tests use fresh streams.", "anchors": ["include/g3io.hpp: operator<<", "include/g3io.hpp: priv::put"]}
{"id": "C66", "title": "Reflections and negation are exact on binary64", "statement": "On binary64, reflecting the operands in coordinate planes (changing the sign of e1, e2 or e3) and negating either of them gives exactly the reflected and negated product, for every pair of types; sums and differences of a pair that has them, the involutions, the dual (with complementary blades) and the conversion to MultiVector respect any choice of signs of the blades; squared magnitude, magnitude and validity do not change; directions and inverses of blades change their signs likewise; exp, logG2 and sqrtG2 of spinors respect any choice of signs of the bivector components whatever the mathematical library returns. nearlyEquals and operator== give the same answer when the signs of both operands are changed alike. In particular exp of the reverse is the reverse of exp. Only signs of zeros may differ.", "quantifier": "all types and pairs of types, all doubles including infinities and NaN, all reflections or sign choices, every mathematical library", "why_tests_cant": "Exact equality over all doubles and all sign choices; a test with a tolerance cannot tell exact symmetry from symmetry up to rounding.", "anchors": ["include/g3opsMul_MultiVector.hpp: operator*", "include/g3opsAdd.hpp: operator+", "include/g3opsUni.hpp: reverse", "include/g3func.hpp: magSq", "include/g3func.hpp: direction", "include/g3func.hpp: inverse", "include/g3func.hpp: exp", "include/g3func.hpp: logG2", "include/g3func.hpp: sqrtG2", "include/g3compare.hpp: nearlyEquals"]}
{"id": "C67", "title": "Rotation by a computed exponential", "statement": "On binary64, for a bivector b in the domain of C58 and a value v of any type with components at most 2^1013, the computed exp(b)*v*reverse(exp(b)) is finite and its distance from the rotation of v by the true exponential of b, as well as the change of norm, is at most (269 u + 13/4 (2 eps + 16 u (1 + |b|))) |v| + 88 eta; eps the error of sine and cosine, u = 2^-53, eta = 2^-1075.", "quantifier": "all bivectors in the stated domain, all types and values within the bound, every mathematical library with sine and cosine within eps <= 1/16", "why_tests_cant": "The true exponential is a limit and the inputs range over all doubles; errors of the library, of exp and of the two products combine.", "anchors": ["include/g3func.hpp: exp", "include/g3opsMul_Spinor.hpp: operator*", "include/g3opsUni.hpp: reverse"]}
{"id": "C68", "title": "Products under fused multiply-add and other rounding modes", "statement": "Whichever products the compiler fuses with the sums they are operands of, and whichever rounding mode each operation uses, the product of two finite values whose exact sums of absolute terms are at most 2^1021 is finite and each component errs by at most 9 e times the sum of absolute values of its terms plus 9 t, with e = 2^-53, t = 2^-1075 for the two nearest modes and twice these for arbitrary modes. The same holds for magSq; a rotation s*v*reverse(s) errs by at most 53 e |s|^2 |v| + 27 t (1 + |s|). On integers up to 2^24 every choice gives the exact result. The model's results are the choice without fusing in the default mode. Fusing is visible: v*v has no bivector part without it, and may have one with it.", "quantifier": "all finite doubles within the bound, all type pairs, all ways of fusing, all assignments of rounding modes to operations", "why_tests_cant": "A test binary is one compilation: it shows one choice of contraction and one rounding mode out of exponentially many.", "anchors": ["include/g3opsMul.hpp: operator*", "include/g3_private.hpp: prodComm", "include/g3func.hpp: magSq"]}
{"id": "C69", "title": "Client expressions of any size", "statement": "Take any expression, of any size, built from values by negation, reverse, oddverse, dirverse, dual, conversion to MultiVector, magSq, products, sums and differences. It has a value exactly if every overload it needs exists. Over the reals the value is the multivector the expression stands for, unless one of the six pairs of C03 is subtracted. On binary64: a finite result means that every value written was finite, and its distance from the exact multivector is at most the running bound `error`; NaN and other non-finite values stay visible in the result; values below 2^e cannot overflow while the exponent bound stays at 1023; integers are computed exactly while the integer bound stays at 2^53; two expressions with the same meaning differ by at most the sum of their bounds, in particular (pq)r and p(qr), p(q+r) and pq+pr; a product of n+1 values of length up to L errs by at most ((1+26u)^n - 1) L^(n+1) plus underflow. Changing signs of zeros that are written changes only signs of zeros; reflecting every value reflects the result to the bit.", "quantifier": "all expressions of all sizes, all operand types, all values; all doubles in the binary64 parts", "why_tests_cant": "Expressions nest without bound; a test evaluates particular ones with particular operands, and cannot show error bounds, exactness or invariance for those not written.", "anchors": ["include/g3opsMul.hpp: operator*", "include/g3opsAdd.hpp: operator+", "include/g3opsSub.hpp: operator-", "include/g3opsUni.hpp: operator-, reverse, oddverse, dirverse, dual", "include/g3func.hpp: magSq"]}
{"id": "C70", "title": "Several objects in one text", "statement": "Objects of any types and in any number whose enote texts with 17 or more digits make up the words of a text, whatever the white space between them, are read back one after the other with operator>>, exactly, and what follows stays unread. The loop `while (is >> x) list.push_back(x)` collects just these and stops at the end of the text or at a word that does not begin like a number; on every text it ends, after no more rounds than the text has characters, and every component it collected was written. Objects written with operator<< to one stream, a line each, come back in number and type and within 10^-6. Valid components are needed: a vector with a finite but not valid first component becomes NaN, and the next vector read is made of the rest of this one and the beginning of the other, without the stream failing.", "quantifier": "all lists of objects of all types, all component values, all white space, all texts for termination", "why_tests_cant": "A test reads particular files; the number of objects, their values and the layout are unbounded, and termination concerns every text.", "anchors": ["include/g3io.hpp: operator>>", "include/g3io.hpp: enote", "include/g3io.hpp: operator<<", "include/g3io.hpp: priv::isInputOkay"]}
{"id": "C71", "title": "Text on standard output", "statement": "A number written to a stream appears in the notation and with the precision of the stream, general notation (the default) included: rounded to that many significant digits, ties to even, without exponent if the exponent of the rounded value is from -4 to one less than the precision, no zeros at the end of the fraction. With 17 digits every finite double is read back as it was, with P digits to P - 1 digits. exp(MultiVector) writes ten lines of a label and a value if its argument is valid and nothing otherwise, and leaves the format of the stream alone; in exact arithmetic the values are the lengths of vector minus and plus bivector, their cosines, their sinc within 2e-28, half the exponential of the scalar, the exponentials of the trivector and of its opposite, and their sum. The demonstration program writes the lines of its documentation around the values it starts from, whatever they are; the dual it shows is the spinor with the bivector negated, and the multivector is both together.", "quantifier": "all doubles, notations and precisions; all multivectors and all cos, sin, exp; all values and stream states with no width set for the demonstration", "why_tests_cant": "Rounding to significant digits and the choice between the two forms depend on the value; the cases are at powers of ten and at ties, out of 2^64 doubles. The library's tests do not look at standard output.", "anchors": ["include/g3func.hpp: exp(MultiVector)", "demo/helloEngabra.cpp: showFundamentalTypes", "demo/helloEngabra.cpp: showCompositeTypes", "include/g3io.hpp: operator<<"]}
{"id": "C72", "title": "Scaling by powers of two", "statement": "In double arithmetic, multiplying the components of the operands by powers of two multiplies the results by the corresponding power, bit for bit and including the sign of zeros: products (all pairs of types) if nothing overflows and no product of two components underflows, in particular for components from 2^-500 to 2^500; sums and differences if nothing overflows; negation, reversals, dual and conversion to a multivector always; squared magnitude and magnitude for components from 2^-400 to 2^400. For components from 2^-200 to 2^200, before and after, the direction of a nonzero value is the same double for double, the inverses of the blades scale by the opposite power, and nearlyEquals gives the same answer if every grade of the reference value is nonzero. With a zero grade in the reference the answer can change.", "quantifier": "all types and pairs of types, all doubles in the stated ranges (zeros included), all exponents of the scale, all tolerances", "why_tests_cant": "A change of units that is a power of two must not change any decision; a test sees a few scales, while a threshold or an intermediate sum of mixed degree shows only at some of them.", "anchors": ["include/g3opsMul.hpp: operator*", "include/g3opsAdd.hpp: operator+", "include/g3opsSub.hpp: operator-", "include/g3func.hpp: magSq, magnitude, direction, inverse", "include/g3compare.hpp: nearlyEquals"]}
{"id": "C73", "title": "Amplitude and inverses through complex numbers, on binary64", "statement": "In double arithmetic, for values of norm from 2^-400 to 2^400, the squared amplitude of every type is within 14 unit roundoffs times the squared norm of the product with the dirverse. With any library of complex functions of relative error eps up to 2^-10: the amplitude is finite, its square is within (3 eps + 15 unit roundoffs) times the squared norm of that product, its real part is not below zero except by rounding, and for scalars, bivectors and spinors it is the magnitude up to 2 eps + 15 unit roundoffs; the inverse of a complex number of norm from 2^-180 to 2^180 multiplies it to one up to 4 eps; the inverse of a multivector multiplies it to one from either side up to 4 eps plus 40 unit roundoffs times the condition |X|^2/|X dirverse(X)|, where that is at most 2^46. For components that are integers of up to 24 bits the inverse is accurate whenever there is one and consists of NaN whenever there is none. In general a multivector without an inverse can be given a finite one.", "quantifier": "all finite values in the stated ranges, all types with an amplitude, all complex libraries of the stated accuracy", "why_tests_cant": "The tests multiply a few well conditioned inverses back; the loss near multivectors without an inverse, and the value returned for one, depend on how the squared amplitude is rounded.", "anchors": ["include/g3func.hpp: ampSq, amplitude, inverse(ComPlex), inverse(MultiVector)"]}
{"id": "C74", "title": "Identities of the algebra that hold to the bit", "statement": "In double arithmetic, signs of zeros apart: the reverse and the dirverse of a product are the product of the reverses (dirverses) in the other order exactly for all but four pairs of types; the dual of a product is the product with the dual of the first (second) factor exactly for all but four pairs; the product of finite values is the product of the MultiVectors they stand for exactly for all but 27 pairs; factors commute, and the axes can be renamed in cycles, exactly for the pairs with a type of scalars and trivectors only; for no three types is the product associative. The squared magnitude is the scalar part of the product with the reverse for every type but MultiVector, and if that product is finite its other parts are exactly zero for every type but DirPlex and MultiVector. The squared amplitude is the scalar part of the product with the dirverse for every type but MultiVector and the trivector part for every type but ComPlex and MultiVector, and if that product is finite its vector and bivector parts are exactly zero for every type but MultiVector. For each excepted type or pair there are values with different results.", "quantifier": "all pairs and triples of types; all doubles including infinities and NaN where not restricted to finite operands or results", "why_tests_cant": "The tests compare with a tolerance, so they see neither which identities are exact nor for which types the order of the additions differs.", "anchors": ["include/g3opsMul.hpp: all overloads", "include/g3opsUni.hpp: reverse, dirverse, dual", "include/g3func.hpp: magSq, ampSq"]}
{"id": "C75", "title": "Text that is read and written again stays the same", "statement": "Text written by fixed (0 to 307 digits after the point) or by operator<< for any object with finite components is read as an object whose text, written the same way, is the same; so it is for enote with 1 or more digits after the point, other than 15, and components of absolute value from 2^-1021 to 2^1023 or zero. Hence copying a text through the library any number of times does not change it. The object may change at the first reading. With 15 digits, the default of enote, the text can change: 1.000000000000000e+23 becomes 9.999999999999999e+22.", "quantifier": "all types, all finite components (moderate ones for enote), all numbers of digits, all field widths and streams as stated, all texts that follow, any number of copies", "why_tests_cant": "The tests compare one value read with the one written; whether text drifts depends on ties and on changes of the decimal and of the binary exponent at the same place, which for 15 digits happens at a few powers of ten only.", "anchors": ["include/g3io.hpp: fixed, enote, operator<<, operator>>"]}
{"id": "C76", "title": "Computed identities pass the library's own comparison", "statement": "For the blades Scalar, Vector, BiVector and TriVector whose components are zero or from 2^-200 to 2^200 in absolute value, not all zero, nearlyEquals(x*inverse(x), one, tol) and nearlyEquals(inverse(x)*x, one, tol) hold at every finite tolerance from 2^-47 up; so does nearlyEquals(magnitude(x)*direction(x), x, tol) for every type. More generally nearlyEquals accepts whatever is, grade by grade, within a fraction just below the tolerance, and whatever meets the documented condition on each component. The default tolerance, epsilon, rejects both identities for some values; swapping the arguments, or comparing the two bracketings of a product of three vectors, can be rejected at every tolerance up to 1; outside the range of components the comparison can fail at every tolerance.", "quantifier": "all blades and all types with components in range, all finite tolerances from 2^-47 up", "why_tests_cant": "Tests check such identities for a handful of values with the tolerance chosen until they pass; whether a value passes depends on how six to twenty roundings combine, and on whether a residue that should be zero is subnormal.", "anchors": ["include/g3compare.hpp:46-64", "include/g3compare.hpp: nearlyEquals", "include/g3func.hpp: inverse, magnitude, direction"]}
{"id": "C77", "title": "nearlyEquals along a chain and with its arguments exchanged", "statement": "In a chain of values of any length, each nearly equal to the next at a tolerance from 2^-53 up, the first is nearly equal to the last at any tolerance above (1+a)^n - 1 for n steps, a being the tolerance with the rounding of the comparison, provided each grade of the values after the first is either zero throughout or of plain size (squared length from 2^-900 to 2^1000). With tolerances up to 1/8, two steps give nearly equal at three times the tolerance; with tolerances up to 1/4, exchanging the arguments gives nearly equal at twice the tolerance. At the same tolerance neither transitivity nor symmetry holds, and a grade that is zero on one side only defeats symmetry at every tolerance up to 1.", "quantifier": "all types but double, all values with grades zero or of plain size, all chain lengths, all finite tolerances from 2^-53 (for the round numbers: up to 1/8 and 1/4)", "why_tests_cant": "A test compares two values with a tolerance; that acceptances combine along chains of any length, and by how much the tolerance has to grow, is a statement about all values and all lengths, with the rounding of the comparison itself included.", "anchors": ["include/g3compare.hpp: nearlyEquals"]}
{"id": "C78", "title": "Composing rotations with normalisation at each step", "statement": "A loop that multiplies spinors and takes the direction of each product stays finite and of length 1 within 15 units of roundoff after any number of steps. Its distance from the exact product normalised once is at most (15 + 84 n) units of roundoff after n steps, and when the spinors stand for exact rotors their own errors add up. With a math library whose sine and cosine are within eps, the attitude computed from any sequence of angles by exp, product and direction is within 15 units of roundoff plus the sum of the errors of the single steps of the exact product of the true exponentials, and rotating a value of any type with it is accurate accordingly. Without normalisation no bound on the length holds for all numbers of steps.", "quantifier": "all numbers of steps, all finite spinors of length from 2^-200 to 2^200, all angles in the domain of exp up to 2^40, all math libraries within eps <= 1/16, all types and values rotated", "why_tests_cant": "A test runs one loop of a fixed length; the bound concerns every number of steps and every sequence of spinors, with all roundings of product, magnitude, reciprocal and scaling, and the absence of a bound without normalisation concerns arbitrarily long runs.", "anchors": ["include/g3func.hpp: direction, magnitude, exp(BiVector)", "include/g3opsMul_Spinor.hpp: operator*"]}
{"id": "C79", "title": "exp(MultiVector) on double", "statement": "With a math library whose sine and cosine are within eps and whose exponential is within relative eps, exp(MultiVector) on valid components, scalar and trivector part up to 300 and length up to 2^40, is finite and within exp(a0 + |a123|) (12 eps + 165 u (1 + |M|)) of the exponential in the algebra whose generators square to -1. For arguments that are scalar plus bivector this is the exponential itself, and the two overloads exp(Spinor) and exp(MultiVector) agree within the sum of their errors. For every trivector and every vector of length from 1 up the computed value is far from the exponential of the argument, whatever the library.", "quantifier": "all math libraries within eps <= 1/16 (for the last part 1/1024), all multivectors of valid components with scalar and trivector part up to 300 and length up to 2^40", "why_tests_cant": "A test compares single results; the bound covers every argument and every library, across the switch between the quotient and the polynomial at 1e-4, cancellation between vector and bivector part, and underflow of squares.", "anchors": ["include/g3func.hpp: exp(MultiVector), sync"]}
{"id": "C80", "title": "Lengths and directions do not overshoot", "statement": "On binary64, for every type: making components larger in size never makes the computed magnitude smaller or turns an infinite one finite; the computed magnitude is at least the size of every component; every component of the computed direction is a number from -1 to 1, also when the squared magnitude overflows; and the magnitude of an element along one basis blade has no rounding error at all. The last three need one component of at least 2^-510. The scalar product of two computed directions may exceed 1, the direction of 49 e1 has a component below 1, and near 2^-537 a component can exceed both 1 and the magnitude.", "quantifier": "all types, all finite elements, all orders of magnitude from 2^-510 up including overflow", "why_tests_cant": "Each claim is an exact inequality between rounded results; a test tries some values, and one last-place error in one of the rounded squares, sums, roots, quotients or products would break it for values not tried.", "anchors": ["include/g3func.hpp: magSq, magnitude, pairMagDirFrom, direction"]}
{"id": "C81", "title": "Results the library calls valid", "statement": "isValid accepts a double that is zero or a normal number. On binary64, if every component of the arguments is zero or between 2^-a and 2^a in size, then every component of the result is a valid number and isValid answers true: for a product of any two types with a up to 485, for sums and differences with a up to 970, for magSq and magnitude with a up to 510, for the direction of a non-zero element with a up to 510, and for the inverse of a non-zero blade with a up to 339. For a client expression of any size the same holds when its leaves are multiples of 2^g below 2^e and two bounds computed from the expression stay in range. The limits for products and differences cannot be raised by one, nor the limit for inverses by two: there are arguments one or two sizes further out whose result isValid rejects, in one case a difference that is computed without error.", "quantifier": "all types, all elements within the size limits, expressions of any depth", "why_tests_cant": "Cancellation between products leaves a remainder as small as the last bits of the operands; only a bound over all operands shows the remainder never falls into the subnormal range that isValid rejects.", "anchors": ["include/g3validity.hpp: isValid", "include/g3opsMul.hpp and the files it includes: operator*", "include/g3opsAdd.hpp, g3opsSub.hpp", "include/g3func.hpp: magSq, magnitude, direction, inverse"]}
{"id": "C82", "title": "Angles, powers and interpolation", "statement": "In exact arithmetic, for vectors a and b that are not nearly parallel, logG2(b*a) has scalar part ln(|a||b|) and its bivector part lies in the plane of b and a, oriented as their cross product, with magnitude the angle between them, strictly between 0 and pi. For a spinor S away from the branches of logG2, exp(t*logG2(S)) is the real power S^t: 1 at 0, S at 1, S^s * S^t = S^(s+t), magnitude |S|^t. Rotating a by (b*a)^(t/2) gives |a|^t|b|^t times the spherical linear interpolation sin((1-t) theta)/sin theta a + sin(t theta)/sin theta (|a|/|b|) b.", "quantifier": "all vectors and spinors away from the branch limits, all real exponents", "why_tests_cant": "Group law and interpolation formula hold for a continuum of exponents and arguments; a sign slip in atan2 order or plane orientation shows only for some quadrants.", "anchors": ["include/g3func.hpp: logG2", "include/g3func.hpp: exp(Spinor)", "include/g3opsMul_Vector.hpp: operator*"]}
{"id": "C83", "title": "Chains of mirrors are rotations", "statement": "In exact arithmetic, mirroring a vector v in the planes with normals a1, b1, a2, b2, ..., for any even number of planes, gives the vector w for which S*v*reverse(S) = (|a1||b1||a2||b2|...)^2 w with S = ...*(b2*a2)*(b1*a1), the trivector part being zero. Every spinor is a product of two vectors. Rotation respects products: the product of two rotated vectors is |r|^2 times the rotated product, and so for cross products.", "quantifier": "all vectors, all spinors, chains of any length", "why_tests_cant": "Quantifies over chains of any length and over all spinors.", "anchors": ["include/g3opsMul_Vector.hpp: operator*", "include/g3opsMul_Spinor.hpp: operator*", "include/g3opsUni.hpp: reverse"]}
{"id": "C84", "title": "The reference exponential of the tests", "statement": "computeExp of test_g3func_exp.cpp (halve the argument until its norm is at most 1/2, sum the series until the estimated residual is below 8 epsilon, square as often as halved): in exact arithmetic the summation always converges before its limit of 56 terms and the result differs from the exponential by at most 2^-43 (1 + 4|M|) |exp(M)| for |M| <= 2^42; the test's own comparison of exp(MultiVector) with it fails for every trivector and vector of length 1 to 2^20. On doubles it returns exactly for arguments that isValid rejects, that have a NaN component or that have finite components only; for finite arguments within 1031 rounds of the halving loop; and it gives null for the first two.", "quantifier": "all multivectors, exact and on doubles", "why_tests_cant": "It is the oracle of the tests: nothing tests it. Non-termination for an infinite component that isValid does not look at cannot be observed by a test that must end.", "anchors": ["test/test_g3func_exp.cpp: computeExp", "test/test_g3func_exp.cpp: check", "include/g3func.hpp: exp(MultiVector)"]}
{"id": "C85", "title": "Round trips under the library's own comparison", "statement": "With a math library of error eps, nearlyEquals(exp(logG2(s)), s, tol) and nearlyEquals(sqrtG2(s)*sqrtG2(s), s, tol) are true for every spinor of the domain whose components are at least k of its norm N, for every tol above (eps (13 + 2|ln N|) + 320 u)/k; nearlyEquals(exp(b)*exp(-b), one, tol) is true for every tol above 6 eps + 80 u + 48 u |b|. For eps = 2^-50, tol = 2^-28 suffices with k = 2^-10, and tol = 2^-36 for |b| <= 1024. Without the condition on the components it is false: 1 + 2^-40 e23 is rejected with every tol up to 1.", "quantifier": "all spinors and bivectors of doubles in the domain, all tolerances, all math libraries within eps", "why_tests_cant": "The tests compare a handful of spinors at 1e-15 or so; whether the same comparison succeeds elsewhere depends on how rounding errors of log, atan2, exp, cos and sin combine with the relative comparison of the single grades.", "anchors": ["include/g3func.hpp: logG2, sqrtG2, exp(Spinor), exp(BiVector)", "include/g3compare.hpp: nearlyEquals(Spinor)"]}
{"id": "C86", "title": "Computed angles on doubles", "statement": "With an atan2 of error eps, magnitude(logG2(s).theBiv) is within 4 eps + 380 u of half the angle by which the spinor s turns, and magnitude(logG2(b*a).theBiv) within 4 eps + 480 u of the angle between the vectors a and b, unless the sine of the angle is below 2^-22, and within 4 eps + 2^-20 in any case. logG2(exp(b)) is b up to 32 eps + 1300 u for bivectors of norm between 2^-20 and 3/2. Small angles have no relative accuracy: below about 2^-31 the computed angle is exactly zero.", "quantifier": "all spinors, vectors and bivectors of doubles in the domain, all math libraries within eps", "why_tests_cant": "The angle comes out of a product, two roots, an atan2 and a multiplication, each rounded; the tests look at a few angles far from 0 and pi, where none of the thresholds of logG2 takes effect.", "anchors": ["include/g3func.hpp: logG2, exp(BiVector), magnitude", "include/g3opsMul.hpp: Vector * Vector"]}
{"id": "C87", "title": "Scalars as spinors: logarithm and root to the bit", "statement": "For a spinor whose bivector part is zero (of either sign) and whose scalar is x, on doubles and for every math library: logG2 is exactly log(x) with zero bivector part for epsilon < x <= 2^511, log(-x) with a half turn of the given coordinate plane for -x in that range, null for |x| <= epsilon. sqrtG2 is exactly exp(log(x)/2) for 4 epsilon <= x <= 2^511, and that number times (cos(pi/2), sin(pi/2) plane) for negative x; so the roots of 1 and -1 are 1 and the plane when the library is right at 0, 1 and pi/2. For valid non-zero |x| < 4 epsilon, sqrtG2 is zero.", "quantifier": "all scalar spinors of doubles in the ranges, all coordinate planes, all math libraries", "why_tests_cant": "test_g3func_G2.cpp tries 1, -1, -3 and 0. Whether the test 1 - epsilon < cos succeeds depends on how 1/|x| * x rounds, which varies with x: for 49 it is below 1.", "anchors": ["include/g3func.hpp: logG2, sqrtG2, exp(Spinor)", "test/test_g3func_G2.cpp: test2, test3"]}
{"id": "C88", "title": "Turns by a given angle, and Euler's identity", "statement": "On doubles, exp(angle * direction(b)) for 2^-90 <= |angle| <= 2^90 and any plane b of norm between 2^-480 and 2^480 (first component zero or not below 2^-900 of the norm) is finite and within 2 eps + 2^-53 (16 + 33 |angle|) of cos(angle) + sin(angle) b/|b|, eps being the absolute error of the library's sine and cosine. So turnHalf gives -1 within 2 eps + 128*2^-53, turnQtr gives b/|b| within 2 eps + 72*2^-53, turnFull gives 1 within 2 eps + 240*2^-53; nearlyEquals accepts all three for every plane when its tolerance exceeds 512 epsilon and the results are valid. With the default tolerance the manual's example of Euler's identity holds for the plane it uses, e23 + e12, but fails for 2 e23 + e31 + e12 with every library within epsilon.", "quantifier": "all planes and all angles of doubles in the ranges, all math libraries within eps", "why_tests_cant": "The test of the identity uses one plane, where |pi * direction| rounds to pi. The manual says the direction is arbitrary; in a simulation over the integer planes with components up to 12 the comparison failed for two in five.", "anchors": ["include/g3func.hpp: exp(BiVector), direction", "include/g3const.hpp: turnHalf, turnQtr, turnFull", "include/g3compare.hpp: nearlyEquals", "test/test_g3func_G2.cpp: test1"]}
{"id": "C89", "title": "The README's example: into the frame of a body", "statement": "In real arithmetic, for a unit spinor s, the README's s*(pos - loc)*reverse(s) has a zero trivector part, keeps distances and oriented volumes and is undone by reverse(s)*p*s + loc; the moment of a force, turned, is the moment of the turned force at the transformed position; exp(.5*roll)*exp(.5*elev)*exp(.5*azim) is a unit spinor, the product of the power series; 2*logG2(s).theBiv is an angle of at most a full turn whose half exponential is s again, when the scalar part is at most 1 - epsilon in absolute value. On doubles, for angles with components zero or between 2^-400 and 2^30, with d the sum over the angles of 2 eps + 2^-50 (7 + |angle|), the attitude is finite and within 3/2 d of the product of the true exponentials; positions, forces and moments (values of any type) are within (122*2^-53 + 4 d) of their length, plus 68 subnormal units, of the truth; into the frame and out again is within (450*2^-53 + 14 d) |pos - loc| + 2^-53 |pos|; the true exponential of half the 3D angle is within 12 eps + 3 d + 256*2^-53 of the true attitude, or + 2^-21 if its bivector part is below 2^-22. The bounds hold for sequences of any number of angles with d <= 1/3.", "quantifier": "all unit spinors, points, forces and angles over the reals; all doubles in the ranges, all sequences of angles, all math libraries within eps", "why_tests_cant": "The example of the README is not among the tests; it has one set of values and prints the result without comparing it with anything.", "anchors": ["README.md: 229-259", "include/g3func.hpp: exp(BiVector), logG2", "include/g3opsMul.hpp: operator*", "include/g3opsUni.hpp: reverse"]}
{"id": "C90", "title": "Results do not depend on the choice of axes", "statement": "Turn the axes by a unit spinor s, so that every value a becomes s a reverse(s). In real arithmetic every value of each of the ten types then has exactly one description of the same type. An expression of any size over the operators and unary functions (dual, reverse, magSq and conversion included), computed from the descriptions, gives the description of the result. magnitude, magSq, ampSq and amplitude give the same number; direction, the inverses, the three exponentials (also where exp(MultiVector) is wrong), and logG2 and sqrtG2 with the plane for the branch turned as well, give the description of the result, and not-a-number results are the same in both frames. nearlyEquals gives the same answer for every tolerance if the vector and bivector parts of the reference are at least as long as the smallest normal double. Refuted: logG2 with its default plane e23, and nearlyEquals with a zero reference for every positive tolerance, depend on the frame.", "quantifier": "all unit spinors, all values of all types, all expressions of any size, all tolerances", "why_tests_cant": "The tests use fixed axes; that no sign, component or order is special to an axis is a statement about all frames, and about all overloads of the operators at once.", "anchors": ["include/g3opsMul.hpp: operator*", "include/g3opsAdd.hpp: operator+", "include/g3opsSub.hpp: operator-", "include/g3opsUni.hpp: reverse, dual, dirverse, oddverse", "include/g3func.hpp: magnitude, direction, inverse, exp, logG2, sqrtG2, ampSq, amplitude", "include/g3compare.hpp: nearlyEquals"]}
{"id": "C91", "title": "All logarithms and square roots of a spinor, and which one the library returns", "statement": "In real arithmetic, for a spinor S of magnitude M above epsilon whose scalar part is at most (1 - epsilon) M in absolute value: logG2(S) = ln M + theta d with a unit bivector d and 0 < theta < pi, and the spinors whose power series sums to S are exactly ln M + (theta + 2 k pi) d for the integers k; among them the library's has the smallest angle and is the only one with that angle. If M is at least 4 epsilon, exactly two spinors square to S, sqrtG2(S), whose scalar part is positive, and its negative. For -1 every unit bivector is a root and pi times it a logarithm.", "quantifier": "all spinors off the branches, all spinors as candidates, all integers k", "why_tests_cant": "Uniqueness and minimality quantify over all spinors as candidates.", "anchors": ["include/g3func.hpp: logG2, sqrtG2"]}
{"id": "C92", "title": "Unit spinors are the rotations, two for each", "statement": "In real arithmetic, v -> s*v*reverse(s) keeps dot products and oriented volumes for every unit spinor s. Conversely every map of vectors that keeps both, without assuming it linear, is this map for exactly two unit spinors, which are negatives of each other; it is the exponential of half a bivector angle of at most pi, which exp(BiVector) computes if the angle is zero or not below twice the threshold of the code. Every map of points that keeps distances is such a rotation, or its negative, followed by a shift, and all of these keep distances.", "quantifier": "all unit spinors, all maps from vectors to vectors", "why_tests_cant": "Quantifies over all maps; a test sees one spinor and a few vectors.", "anchors": ["include/g3opsMul.hpp: operator*", "include/g3opsUni.hpp: reverse", "include/g3func.hpp: exp(BiVector)"]}
{"id": "C93", "title": "Nearby arguments give nearby results", "statement": "In real arithmetic, for any two arguments: exponentials of bivectors are no further apart than the bivectors, those of spinors at most exp of the larger scalar part times as far. For spinors with non-negative scalar part off the branch at the positive numbers, logarithms are at most pi/2 times the distance over the smaller magnitude apart, and square roots at most the distance over the root of the sum of the magnitudes. Magnitudes differ by at most the distance; directions by at most the distance over the geometric mean of the magnitudes; inverses of blades are exactly the distance over the product of the magnitudes apart. Rotated vectors are apart by at most the sum of the lengths of the spinors times their distance times the length of the vector. There are spinors 2^-20 apart near -1 whose logarithms are at least 6 and whose square roots at least 1 apart, whatever plane is given.", "quantifier": "all pairs of arguments, all types for magnitude and direction", "why_tests_cant": "A bound on the change of a result for every pair of arguments; tests compare results at single arguments.", "anchors": ["include/g3func.hpp: exp, logG2, sqrtG2, magnitude, direction, inverse", "include/g3opsMul.hpp: operator*"]}
{"id": "C94", "title": "Polar form of multivectors", "statement": "In real arithmetic, every value of a class type has an amplitude. A multivector whose amplitude A has a squared magnitude above the threshold of inverse(ComPlex) is A times inverse(A)*M, and inverse(A)*M times its dirverse is 1; every other such factorisation differs by a common sign. The amplitude of scalars, bivectors and spinors is their magnitude, that of vectors, trivectors and imspins their magnitude times e123. The amplitude of a product is the product of the amplitudes up to sign. The multivectors with amplitude zero are exactly the zero divisors.", "quantifier": "all multivectors; all pairs of types for products", "why_tests_cant": "Uniqueness ranges over every factorisation, and zero divisors are a set of measure zero.", "anchors": ["include/g3func.hpp: amplitude, ampSq, inverse(ComPlex)", "include/g3opsMul.hpp: operator*", "math/PolarForm.lyx"]}
{"id": "C95", "title": "Exponentials are the motions with constant angular velocity", "statement": "In real arithmetic, for every bivector B the values exp(t*B) lie on one curve of spinors whose derivative is B times itself. Vectors rotated along the curve change by B*v - v*B, which is twice the cross product of v with the normal of B. Every differentiable curve of spinors, or of vectors, that changes by the same law is the initial value moved along that curve.", "quantifier": "all bivectors, all times, all differentiable curves", "why_tests_cant": "Statements about derivatives and about every solution of a differential equation.", "anchors": ["include/g3func.hpp: exp(BiVector)", "include/g3opsMul.hpp: operator*"]}
{"id": "C96", "title": "Multivectors as exponentials", "statement": "In real arithmetic, every multivector whose amplitude is not zero is the product of the exponentials of a scalar, a trivector and a dirplex, the decomposition M = e^s e^(I t) e^F of math/PolarForm.lyx. The multivectors whose amplitude is not zero are exactly those with a logarithm. The scalar and trivector of any logarithm give the amplitude: it is plus or minus exp(s)(cos t + e123 sin t).", "quantifier": "all multivectors, all logarithms of them", "why_tests_cant": "Existence and non-existence statements over all multivectors; the exponential is the power series.", "anchors": ["include/g3func.hpp: amplitude, ampSq", "math/PolarForm.lyx"]}
{"id": "C97", "title": "The headers can be included in any order", "statement": "Whatever headers of the library a source file includes, in whatever order and however often, each is taken in once, after the headers it includes, no name is declared twice, and every name is declared before it is used. engabra.hpp provides every name of the library, and g3publish.hpp makes all operators +, - and * visible.", "quantifier": "all finite sequences of #include lines over all files of include/; all names they declare", "why_tests_cant": "There are infinitely many sequences; and every test program includes checks.hpp first, which hides the headers that lack an #include line (theorem C97_hidden_from_tests).", "anchors": ["include/*.hpp: #include lines, include guards and declarations", "include/g3opsAdd_same.hpp:41-64", "include/g3opsSub_same.hpp:41-71", "include/g3publish.hpp:59-91", "include/engabra.hpp:29-45", "test/checks.hpp:26-31"]}
{"id": "C98", "title": "Which operators a program can use, and which file declares them", "statement": "A program that includes engabra.hpp can write a+b and a-b exactly for operand types whose grades together are those of a type of the library, a*b for all operand types, and the unary functions, comparisons and stream operators exactly for the types that the model's overload sets list. Each binary operator is declared in exactly one file: that of its left operand, or the file for like types. g3opsAdd.hpp, g3opsSub.hpp, g3opsMul.hpp and g3ops.hpp gather all their operators.", "quantifier": "all pairs of the ten operand types, all functions of one object, all files, all sequences of #include lines", "why_tests_cant": "A test that uses a missing operator does not compile, so no test can show what is absent; and a test file sees all that its includes happen to bring in.", "anchors": ["include/g3ops*.hpp: declarations", "include/g3opsAdd_Vector.hpp:30", "include/g3opsAdd.hpp:30", "include/g3ops.hpp:30", "include/g3func.hpp:106-900", "include/g3compare.hpp:213-507", "include/g3io.hpp:305-745"]}
{"id": "C99", "title": "Powers of spinors on doubles", "statement": "For every spinor of doubles in the domain of the square root and every exponent t with 2^-36 <= |t| <= 1, exp(t * logG2(s, plane)) is finite and equals exp(t X) up to a relative error of a few units in the last place, where X is one exact logarithm for all t: exp(X) is s up to the accuracy of the logarithm, the scalar part of X is ln|s|, and the bivector part is at most half a turn. So the norm of a power is the power of the norm, the product of two powers is the power to the sum of the exponents, and opposite exponents give inverses, all up to rounding.", "quantifier": "all math libraries within the stated error, all spinors and planes of doubles in the domain, all exponents of doubles between 2^-36 and 1 in absolute value", "why_tests_cant": "The error bound is over all doubles and all library implementations; a test sees some spinors, some exponents and one library.", "anchors": ["include/g3func.hpp:535-566", "include/g3func.hpp:711-768", "include/g3opsMul_double.hpp"]}
{"id": "C100", "title": "Interpolation between attitudes", "statement": "exp(t * logG2(b*reverse(a), plane)) * a interpolates between the unit spinors a and b. In real arithmetic, if their inner product is at most 1 - epsilon in absolute value, it is a for t=0, b for t=1, a unit spinor for all t that the thresholds of the code let pass, equal to (sin((1-t) th) a + sin(t th) b)/sin(th) with cos(th) the inner product, moves with constant speed and is the same when a and b are exchanged and t replaced by 1-t. On doubles, for spinors whose squared norm is at most d <= 1/16 from one, and exponents between 2^-36 and 1 in absolute value, the result is finite, within 7 eps + 150*2^-53 of a curve exp(t X)*a that ends within 2 d + 5 eps + 200*2^-53 of b, or + 2^-21 where b*reverse(a) is nearly real, and its squared norm is within 7 d + 30 eps + 600*2^-53 of one.", "quantifier": "all unit spinors and all real t; all math libraries within the stated error, all finite spinors of doubles of nearly unit norm, all exponents", "why_tests_cant": "Tests interpolate between some attitudes at some points with one library; the claim is about all of them and about the whole curve.", "anchors": ["include/g3func.hpp:535-566", "include/g3func.hpp:711-768", "include/g3opsMul_Spinor.hpp", "include/g3opsUni.hpp"]}
{"id": "C101", "title": "Turning one vector into another", "statement": "sqrtG2(b*a, plane) is the turn from the direction of a to that of b. In real arithmetic, if |a||b| is at least 4 epsilon and the plane is not negligible, its squared norm is |a||b|. If |a.b| <= (1-epsilon)|a||b| it takes a exactly to |a|^2 b, equals (|a||b| + b*a)/sqrt(2(|a||b| + a.b)), and every other spinor of that norm which takes a there turns by a larger angle, except its negative. For nearly parallel vectors the result is within 2^-25 |a|^2 |b| of |a|^2 b. For nearly opposite vectors it is within that distance of |a|^2 b plus twice |a||b| times the part of a normal to the plane. So a vector along that normal stays where it is, and vectors with |a||b| below 4 epsilon go to zero. On doubles, with a math library of error eps <= 2^-40, for vectors of norm up to 2^240 whose half angle has cosine at least h >= 2^-30, the computed spinor is within 2 err/h, relative to the square root of |a||b|, of the shortest turn, and q*a*reverse(q) is finite and within 5 err/h + 60*2^-53 of |a|^2 b, relative to its length; err is eps*(15 + 3|ln|b*a||) plus 320*2^-53, or plus 2^-20 where b*a is nearly real.", "quantifier": "all vectors, all planes, and all spinors as competing turns; all math libraries within the stated error and all finite vectors of doubles in the stated domain", "why_tests_cant": "Tests turn some vectors into others; the shortest turn is a claim about all spinors, and the failures are at opposite and at short vectors.", "anchors": ["include/g3func.hpp:771-795", "include/g3func.hpp:711-768", "include/g3opsMul_Vector.hpp", "include/g3opsUni.hpp"]}
{"id": "C102", "title": "Reflections and projections on doubles", "statement": "On binary64, for vectors and planes of magnitude between 2^-200 and 2^200, -(n*v*inverse(n)) has finite components and is within 72u|v| of the mirror image of v in the plane with normal n. The parts (v*n).theSca*inverse(n) and (v*n).theBiv*inverse(n) are finite and within 72u|v| of the parts of v along and across n. Likewise (v*B).theVec*inverse(B) and (v*B).theTri*inverse(B) for the parts in the plane B and along its normal. The part across n is orthogonal to n up to 72u|v||n|, the part along n is parallel to it up to the same bound, and the two add up to v within 144u|v|; likewise for a plane. Projecting a computed projection again moves it by at most 145u|v|, if it is in the same range. The small trivector left by rounding is counted in the distance. Here u is 2^-53.", "quantifier": "all doubles in the components of n, v and B, within the stated range of magnitudes", "why_tests_cant": "Tests reflect some vectors; the bound is over all doubles and all angles, and includes cancellation between large components.", "anchors": ["include/g3func.hpp:451-464", "include/g3opsMul_Vector.hpp", "include/g3opsMul_BiVector.hpp", "include/g3opsMul_TriVector.hpp", "include/g3opsMul_Spinor.hpp", "include/g3opsUni.hpp"]}
{"id": "C103", "title": "Sequences of reflections on doubles", "statement": "A vector v is reflected in k mirrors one after the other, keeping the vector part of each -(n*v*inverse(n)). On binary64 the result is finite and within ((1+72u)^k - 1)|v| of the image that geometry defines, whenever the normals have magnitudes between 2^-200 and 2^200 and that bound keeps |v| in the same range. If 72uk <= 1/73 the distance is at most 73uk|v|. Then the inner product of two vectors a and b taken through the same mirrors changes by at most 148uk|a||b|. Reflecting twice in the same mirror gives v back within 146u|v|. Here u is 2^-53.", "quantifier": "all lists of normals of any length, all doubles in the components of the normals and of v within the stated ranges", "why_tests_cant": "Tests reflect once or twice; the growth of the error with the number of reflections is a claim about sequences of any length.", "anchors": ["include/g3func.hpp:451-464", "include/g3opsMul_Vector.hpp", "include/g3opsMul_Spinor.hpp", "include/g3opsUni.hpp"]}
