{"id": "C01", "title": "Free fold then flatten is the identity", "statement": "For every usable pattern (numeric, simplex, PSD, arrays and nested dictionaries of them) and every vector x of real numbers of length flat_length(free=True), fold(x, free=True) succeeds and flatten of the result with free=True succeeds and returns exactly x (in exact arithmetic), whatever validate_value is.", "quantifier": "all patterns of any nesting, shape and bounds; all real vectors of the right length; all validate_value settings", "why_tests_cant": "pattern trees, shapes, bounds and vectors are all unbounded", "anchors": ["paragami/base_patterns.py:Pattern.fold/flatten", "paragami/numeric_array_patterns.py:_constrain_array/_unconstrain_array", "paragami/simplex_patterns.py:_constrain_simplex_matrix/_unconstrain_simplex_matrix", "paragami/psdmatrix_patterns.py:_pack_posdef_matrix/_unpack_posdef_matrix", "paragami/pattern_containers.py:PatternDict.fold/flatten, PatternArray.fold/flatten"]}
{"id": "C02", "title": "Free flatten then fold is the identity on interior values", "statement": "For every usable pattern and every folded value strictly inside the constraint set (entries finite and strictly between the bounds; simplex entries positive and summing to one; matrices symmetric with matrix minus diag_lb times identity positive definite; dictionaries carrying at least the pattern keys), flatten(free=True) succeeds, has length flat_length(free=True), contains only finite numbers, and fold(free=True) of it returns the same folded value (with the keys of the pattern in pattern order).", "quantifier": "all patterns; all folded values in the interior of the constraint set", "why_tests_cant": "unbounded value space; includes existence of the Cholesky factor for every positive definite matrix of every size", "anchors": ["paragami/pattern_containers.py:PatternDict", "paragami/pattern_containers.py:PatternArray", "paragami/psdmatrix_patterns.py:_pack_posdef_matrix", "paragami/simplex_patterns.py:_unconstrain_simplex_matrix", "paragami/numeric_array_patterns.py:_unconstrain_array"]}
{"id": "C03", "title": "Non-free flatten then fold is the identity", "statement": "For every usable pattern and every folded value that flatten(free=False) accepts, the flat vector has length flat_length(free=False) and fold(free=False) with the same validate_value accepts it and returns the same value (dictionary keys in pattern order, extra keys dropped).", "quantifier": "all patterns, all accepted folded values of any scalar type, all validate_value settings", "why_tests_cant": "unbounded trees, shapes and values", "anchors": ["paragami/base_patterns.py:Pattern", "paragami/pattern_containers.py:PatternDict.flatten/fold", "paragami/pattern_containers.py:PatternArray.flatten/fold"]}
{"id": "C04", "title": "Non-free fold then flatten is the identity", "statement": "For every usable pattern and every vector that fold(free=False) accepts, flatten(free=False) with the same validate_value accepts the result and returns the same vector.", "quantifier": "all patterns, all accepted vectors, all validate_value settings", "why_tests_cant": "unbounded trees, shapes and values", "anchors": ["paragami/base_patterns.py:Pattern", "paragami/pattern_containers.py:PatternDict.fold", "paragami/pattern_containers.py:PatternArray.fold"]}
{"id": "C05", "title": "fold(free=True) always lands strictly inside the constraint set", "statement": "For every usable pattern and every real vector of the right length, fold(free=True) returns a value strictly inside the constraint set: bounds are strict, every simplex is strictly positive and sums to one, every matrix is symmetric with matrix - diag_lb*I positive definite; hence validate_folded(value, True) is (True, \"\") and random() returns a valid value.", "quantifier": "all patterns; all real vectors", "why_tests_cant": "softmax, logistic and Cholesky maps on unbounded domains and dimensions", "anchors": ["paragami/numeric_array_patterns.py:_constrain_array", "paragami/simplex_patterns.py:_constrain_simplex_matrix", "paragami/simplex_patterns.py:logsumexp", "paragami/psdmatrix_patterns.py:_unpack_posdef_matrix", "paragami/base_patterns.py:Pattern.random"]}
{"id": "C06", "title": "Length contract", "statement": "Whenever flatten(free) succeeds on a usable pattern the result has exactly flat_length(free) entries; fold raises on every one-dimensional vector of any other length: ValueError when all dictionary keys are strings, TypeError (from building the error message) when some key is an int.", "quantifier": "all patterns; all values; all vectors of any length; both free settings", "why_tests_cant": "unbounded trees and lengths", "anchors": ["paragami/base_patterns.py:Pattern.flat_length", "paragami/pattern_containers.py:PatternDict.fold", "paragami/pattern_containers.py:PatternArray.fold", "paragami/numeric_array_patterns.py:NumericArrayPattern.fold", "paragami/simplex_patterns.py:SimplexArrayPattern.fold", "paragami/psdmatrix_patterns.py:PSDSymmetricMatrixPattern.fold"]}
{"id": "C07", "title": "What validation means", "statement": "On finite values validate_folded(v, True) answers True exactly when v has the pattern shape and every entry lies in the closed bounds (numeric), all entries are non-negative and each simplex sums to one within 1e-12 (simplex), the matrix is symmetric with diagonal >= diag_lb (PSD). For values containing NaN the bound check passes: NaN entries are accepted as valid numeric values.", "quantifier": "all shapes, bounds, values including infinities and NaN", "why_tests_cant": "unbounded values; the NaN hole is invisible to ordinary tests", "anchors": ["paragami/numeric_array_patterns.py:NumericArrayPattern.validate_folded", "paragami/simplex_patterns.py:SimplexArrayPattern.validate_folded", "paragami/psdmatrix_patterns.py:PSDSymmetricMatrixPattern.validate_folded"]}
{"id": "C08", "title": "Bounds are inclusive for validation but the upper bound of a two-sided pattern does not survive a free round trip", "statement": "A value equal to a bound validates. With one finite bound, and at the lower bound of a two-sided pattern, flatten(free=True) yields an infinity and fold(free=True) returns the bound again; at the upper bound of any two-sided pattern flatten(free=True) returns +inf and fold(free=True) of it returns NaN.", "quantifier": "all finite bounds lb < ub", "why_tests_cant": "needs the infinities of IEEE arithmetic for all bounds", "anchors": ["paragami/numeric_array_patterns.py:_constrain_array", "paragami/numeric_array_patterns.py:_unconstrain_array"]}
{"id": "C09", "title": "validate_value=False only checks shape", "statement": "With validate_value=False (or default_validate False everywhere and validate_value None), non-free fold accepts every vector of the right length and non-free flatten accepts every value of the right shape, for every scalar content including NaN.", "quantifier": "all usable patterns, all vectors", "why_tests_cant": "unbounded trees and contents", "anchors": ["paragami/numeric_array_patterns.py:NumericArrayPattern.fold", "paragami/simplex_patterns.py:SimplexArrayPattern.fold", "paragami/psdmatrix_patterns.py:PSDSymmetricMatrixPattern.fold", "paragami/pattern_containers.py:PatternDict.fold"]}
{"id": "C10", "title": "validate_folded reports or raises on wrong shapes depending on the pattern type", "statement": "For numeric patterns and arrays of any pattern, validate_folded never raises on an array: it returns (False, msg) for wrong shapes. For simplex and PSD patterns every array of the wrong shape makes validate_folded raise ValueError instead of returning, and this escapes through PatternDict.validate_folded and PatternDict.flatten.", "quantifier": "all patterns, all arrays of any shape", "why_tests_cant": "unbounded shapes and nesting", "anchors": ["paragami/numeric_array_patterns.py:NumericArrayPattern.validate_folded", "paragami/simplex_patterns.py:SimplexArrayPattern.validate_folded", "paragami/psdmatrix_patterns.py:PSDSymmetricMatrixPattern.validate_folded", "paragami/pattern_containers.py:PatternDict.validate_folded"]}
{"id": "C11", "title": "free_default", "statement": "For every pattern, a call of fold, flatten or flat_length with free=None behaves exactly as with free=free_default and raises ValueError if free_default is None too; the same holds for flat_indices except that leaf patterns answer an all-False mask with the empty result before looking at free; an explicit free always overrides, and the free_default of patterns nested in containers has no influence.", "quantifier": "all patterns with any free_default anywhere in the tree; all arguments", "why_tests_cant": "unbounded trees", "anchors": ["paragami/base_patterns.py:Pattern._free_with_default", "paragami/pattern_containers.py:PatternDict.fold"]}
{"id": "C12", "title": "flat_indices(free=False) addresses exactly the selected entries", "statement": "For every usable pattern and boolean mask of the folded shape, flat_indices(mask, free=False) is strictly increasing, within range, and is exactly the set of positions at which flatten(mask, free=False, validate_value=False) is True; so selecting those positions of flatten(v, free=False) gives exactly the entries of v where the mask is True.", "quantifier": "all patterns, masks, values", "why_tests_cant": "unbounded trees, shapes and masks", "anchors": ["paragami/numeric_array_patterns.py:NumericArrayPattern.flat_indices", "paragami/simplex_patterns.py:SimplexArrayPattern.flat_indices", "paragami/psdmatrix_patterns.py:PSDSymmetricMatrixPattern.flat_indices", "paragami/pattern_containers.py:PatternDict.flat_indices", "paragami/pattern_containers.py:PatternArray.flat_indices"]}
{"id": "C13", "title": "flat_indices(free=True) covers all dependencies", "statement": "For every usable pattern, mask and pair of free vectors x, y that agree on all positions in flat_indices(mask, free=True), the values fold(x, free=True) and fold(y, free=True) agree at every entry where the mask is True.", "quantifier": "all patterns, masks, pairs of real vectors", "why_tests_cant": "dependency is a statement about all pairs of inputs", "anchors": ["paragami/simplex_patterns.py:SimplexArrayPattern.flat_indices", "paragami/psdmatrix_patterns.py:PSDSymmetricMatrixPattern.flat_indices", "paragami/numeric_array_patterns.py:NumericArrayPattern.flat_indices", "paragami/pattern_containers.py:PatternDict.flat_indices", "paragami/pattern_containers.py:PatternArray.flat_indices"]}
{"id": "C14", "title": "flat_indices(free=True) is well formed", "statement": "flat_indices(mask, free=True) is strictly increasing with all indices below flat_length(True), for every usable pattern and mask; the all-False mask gives the empty result and the all-True mask gives all indices 0..flat_length-1 for both settings of free.", "quantifier": "all patterns and masks", "why_tests_cant": "unbounded trees, shapes and masks", "anchors": ["paragami/pattern_containers.py:PatternDict.flat_indices", "paragami/pattern_containers.py:PatternArray.flat_indices", "paragami/simplex_patterns.py:SimplexArrayPattern.flat_indices"]}
{"id": "C15", "title": "Precision of free indices", "statement": "For numeric and simplex patterns, and containers of them, the free indices are exact: changing the free value at a returned index always changes some selected entry. For PSD matrices they over-approximate: entry [0,0] of a 2x2 matrix is reported to depend on all three free values but depends only on one.", "quantifier": "all numeric/simplex patterns, masks, points; PSD counterexample", "why_tests_cant": "a statement about all points", "anchors": ["paragami/simplex_patterns.py:SimplexArrayPattern.flat_indices", "paragami/psdmatrix_patterns.py:PSDSymmetricMatrixPattern.flat_indices"]}
{"id": "C16", "title": "empty_bool", "statement": "empty_bool(b) succeeds on every usable pattern, has the folded shape, every entry is b, and its non-free flattening is flat_length(False) copies of b.", "quantifier": "all usable patterns, both booleans", "why_tests_cant": "unbounded trees", "anchors": ["paragami/base_patterns.py:Pattern.empty_bool"]}
{"id": "C17", "title": "empty(valid=True) is valid", "statement": "empty(valid=True) returns, for every usable pattern, a value strictly inside the constraint set: it validates, can be flattened with free=True and survives the free round trip.", "quantifier": "all usable patterns (all bounds, sizes, diag_lb)", "why_tests_cant": "unbounded parameters", "anchors": ["paragami/numeric_array_patterns.py:_get_inbounds_value", "paragami/simplex_patterns.py:SimplexArrayPattern.empty", "paragami/psdmatrix_patterns.py:PSDSymmetricMatrixPattern.empty", "paragami/pattern_containers.py:PatternDict.empty", "paragami/pattern_containers.py:PatternArray.empty"]}
{"id": "C18", "title": "PatternDict layout", "statement": "flatten of a PatternDict is the concatenation, in key insertion order, of the children flattenings with the same free and validate_value; fold gives each child exactly its slice, so changing the slice of one key changes only that key.", "quantifier": "all dictionaries of any size and nesting", "why_tests_cant": "unbounded trees", "anchors": ["paragami/pattern_containers.py:PatternDict.flatten", "paragami/pattern_containers.py:PatternDict.fold"]}
{"id": "C19", "title": "PatternArray layout", "statement": "For a PatternArray, flatten is the concatenation in C order over array positions of the base flattenings, and the sub-array of fold(x) at multi-index item equals base.fold(x[k*n:(k+1)*n]) where k is the row-major rank of item and n the base flat length.", "quantifier": "all array shapes, base patterns and multi-indices", "why_tests_cant": "unbounded ranks", "anchors": ["paragami/pattern_containers.py:PatternArray._stacked_obs_slice", "paragami/pattern_containers.py:PatternArray.fold", "paragami/pattern_containers.py:PatternArray.flatten"]}
{"id": "C20", "title": "Dictionary lengths are right after every history", "statement": "After any sequence of API operations (creating patterns and dictionaries, setting, replacing, deleting keys, locking, nesting dictionaries into others, with arbitrary sharing), as long as no dictionary is inserted into itself and only patterns are inserted, every dictionary reports flat_length(free) equal to the sum of what its current children report, recursively, even though lengths are cached and children are shared mutable objects.", "quantifier": "all finite operation histories over any number of shared mutable dictionary objects", "why_tests_cant": "histories and aliasing are unbounded", "anchors": ["paragami/pattern_containers.py:PatternDict.__setitem__", "paragami/pattern_containers.py:PatternDict.__delitem__", "paragami/pattern_containers.py:PatternDict._update_flat_length", "paragami/pattern_containers.py:PatternDict.lock"]}
{"id": "C21", "title": "Locking is permanent and total", "statement": "After lock(), and for every dictionary that has been inserted as a member of another, every later assignment or deletion raises ValueError and changes nothing; no later history unlocks it or changes its contents or lengths.", "quantifier": "all histories after the lock", "why_tests_cant": "unbounded histories with aliasing", "anchors": ["paragami/pattern_containers.py:PatternDict._check_lock", "paragami/pattern_containers.py:PatternDict.__setitem__", "paragami/pattern_containers.py:PatternDict.__delitem__"]}
{"id": "C22", "title": "Inserting a dictionary into itself corrupts it", "statement": "d[k] = d on an unlocked dictionary succeeds and locks d. If d reported n and the members under other keys report m, then from then on and after every later history d reports m + n while its members report m + (m + n): the two differ for good exactly when m > 0. In every case d no longer denotes any finite pattern tree.", "quantifier": "all reachable unlocked dictionaries, all keys, both free settings, all later histories", "why_tests_cant": "needs the cached-length semantics over histories", "anchors": ["paragami/pattern_containers.py:PatternDict.__setitem__"]}
{"id": "C23", "title": "A failing assignment is not atomic", "statement": "Assigning an object that is not a pattern raises AttributeError but leaves the key in the dictionary (lengths stale); deleting that key repairs the dictionary.", "quantifier": "all reachable dictionaries, keys and non-pattern objects", "why_tests_cant": "failure atomicity over histories", "anchors": ["paragami/pattern_containers.py:PatternDict.__setitem__", "paragami/pattern_containers.py:PatternDict._update_flat_length"]}
{"id": "C24", "title": "A dictionary emptied by deletion cannot be nested", "statement": "A fresh empty PatternDict has integer lengths; after deleting the last key its lengths are the float 0.0 and then empty_bool raises TypeError; no vector folds in any pattern that contains it at any depth, and folding finite free values of the right number raises TypeError when the members in front are usable.", "quantifier": "all dictionaries emptied by deletion, all parents", "why_tests_cant": "history dependence of the cached length type", "anchors": ["paragami/pattern_containers.py:PatternDict._update_flat_length", "paragami/base_patterns.py:Pattern.empty_bool"]}
{"id": "C25", "title": "JSON round trip", "statement": "For every pattern built from the public constructors with string keys, get_pattern_from_json(p.to_json()) and type(p).from_json(p.to_json()) succeed, give the same pattern, it compares equal to p in both directions and has the same JSON text, including key order of nested dictionaries, infinite bounds and any Unicode key text in which no leading surrogate is directly followed by a trailing one (with such a pair the result is a different pattern).", "quantifier": "all patterns, arbitrarily nested, any key strings and bounds", "why_tests_cant": "string escaping nests with the depth of the tree, both unbounded", "anchors": ["paragami/base_patterns.py:Pattern.to_json/from_json", "paragami/pattern_containers.py:get_pattern_from_json", "paragami/pattern_containers.py:PatternDict.from_json/as_dict", "paragami/pattern_containers.py:PatternArray.from_json/as_dict", "paragami/simplex_patterns.py:SimplexArrayPattern.from_json"]}
{"id": "C26", "title": "A pattern read from JSON behaves like the original", "statement": "The pattern read back gives the same results as the original for fold, flatten, validate_folded, flat_length, flat_indices and empty, whenever free is given explicitly and no dictionary in the tree was emptied by deleting its last member (for such a dictionary the behaviour differs).", "quantifier": "all JSON-serialisable patterns, all arguments", "why_tests_cant": "unbounded patterns and arguments", "anchors": ["paragami/pattern_containers.py:get_pattern_from_json", "paragami/base_patterns.py:Pattern.from_json"]}
{"id": "C27", "title": "free_default and the lock do not survive JSON (except numeric free_default)", "statement": "The free_default of numeric patterns survives the JSON round trip at top level; that of simplex, PSD, array and dictionary patterns is always lost although the result compares equal; a locked dictionary comes back unlocked.", "quantifier": "all patterns with a free_default; all locked dictionaries", "why_tests_cant": "statement about all patterns and about equality versus behaviour", "anchors": ["paragami/simplex_patterns.py:SimplexArrayPattern.as_dict", "paragami/psdmatrix_patterns.py:PSDSymmetricMatrixPattern.as_dict", "paragami/pattern_containers.py:PatternDict.as_dict", "paragami/pattern_containers.py:PatternArray.as_dict"]}
{"id": "C28", "title": "Pattern equality is an equivalence and implies equal behaviour", "statement": "== on constructed patterns is reflexive, symmetric and transitive, and p == q implies that p and q give the same results for fold, flatten, validation and indices with explicit free, even though == only looks at the dictionary description; this needs proper key text, no emptied dictionary and integer PSD sizes, and fails without.", "quantifier": "all pairs and triples of patterns", "why_tests_cant": "unbounded patterns; semantic consequence of a syntactic test", "anchors": ["paragami/base_patterns.py:Pattern.__eq__", "paragami/base_patterns.py:Pattern.as_dict"]}
{"id": "C29", "title": "Equality is not a congruence", "statement": "Two patterns that compare equal (bounds 1 and 1.0) stop comparing equal once put in otherwise identical dictionaries or arrays, because members are compared through their JSON text.", "quantifier": "existence for integer/float bounds", "why_tests_cant": "needs the JSON text model", "anchors": ["paragami/base_patterns.py:Pattern.__eq__", "paragami/pattern_containers.py:PatternDict.as_dict", "paragami/pattern_containers.py:PatternArray.as_dict"]}
{"id": "C30", "title": "Non-string dictionary keys do not survive JSON", "statement": "For every pattern with an integer dictionary key at any depth to_json succeeds but reading the text back raises KeyError, also when the same tree has a string key with the same digits.", "quantifier": "all dictionaries with a non-string key", "why_tests_cant": "any dictionary", "anchors": ["paragami/pattern_containers.py:PatternDict.as_dict", "paragami/pattern_containers.py:PatternDict.from_json"]}
{"id": "C31", "title": "Reading JSON rejects the wrong type", "statement": "get_pattern_from_json raises KeyError on any JSON object without a \"pattern\" entry and on any unregistered name, TypeError on any JSON value that is not an object, ValueError on text that is not JSON; Class.from_json raises ValueError on any JSON object naming another class, in particular on the JSON of every pattern of another class.", "quantifier": "all JSON objects, names and patterns", "why_tests_cant": "unbounded inputs", "anchors": ["paragami/pattern_containers.py:get_pattern_from_json", "paragami/base_patterns.py:Pattern._validate_json_dict_type", "paragami/pattern_containers.py:PatternDict.from_json", "paragami/pattern_containers.py:PatternArray.from_json"]}
{"id": "C32", "title": "Registry histories", "statement": "After any sequence of register_pattern_json calls, a name resolves to the class of the last registration that was not refused; a call is refused with ValueError exactly when it does not allow overwriting and the name is taken, and then leaves the registry unchanged.", "quantifier": "all sequences of registrations", "why_tests_cant": "unbounded histories", "anchors": ["paragami/pattern_containers.py:register_pattern_json"]}
{"id": "C33", "title": "save_folded / load_folded round trip", "statement": "For every pattern that folds and flattens (usable) and every value that flattens with free=False, save_folded followed by load_folded on the name the file was given returns the canonical form of the value, a pattern equal to the saved one and every extra keyword array under its own name; this holds after any history of further saves to other files, and a later save to the same file replaces it. An extra whose name is a saved name with '.npy' appended is not readable (refuted separately). On a file written by anything else load_folded reads the pattern first and raises KeyError when 'pattern_json' or then 'flat_val' is missing, else what reading the description or folding raises. Stored texts lose their trailing NULs.", "quantifier": "all patterns, values, extras, file names, prior file system states", "why_tests_cant": "unbounded data and histories", "anchors": ["paragami/pattern_containers.py:save_folded", "paragami/pattern_containers.py:load_folded"]}
{"id": "C34", "title": "The npz extension is added on save but not on load", "statement": "For every file name without the npz extension, save_folded writes name.npz, and load_folded(name) does not see that file.", "quantifier": "all names lacking the extension", "why_tests_cant": "all names", "anchors": ["paragami/pattern_containers.py:save_folded", "paragami/pattern_containers.py:load_folded"]}
{"id": "C35", "title": "Wrapped inputs reach the original function in the right place", "statement": "For every list of distinct non-negative argnums in any order (or none: the first positions), patterns and free flags (one, or one each), calling the wrapped function with any positional and keyword arguments either calls the original exactly once with the same keyword arguments and the same positional arguments in the same order, except that argument argnums[i] is replaced by patterns[i].fold (or flatten) of it with free[i]; or, when a position does not exist (IndexError) or a conversion raises, raises the exception of the leftmost such position without calling the original. A keyword argument named self is a TypeError.", "quantifier": "all argnum permutations, argument lists, functions", "why_tests_cant": "permutations and arities are unbounded", "anchors": ["paragami/function_patterns.py:TransformFunctionInput.__call__", "paragami/function_patterns.py:TransformFunctionInput.__init__"]}
{"id": "C36", "title": "Negative positions: all work except -1; mixed with others they may repeat values", "statement": "With all positions negative and within range, the original is called with the arguments converted at the positions counted from the end; but when -1 is among them all n original arguments are appended, so it is called with 2n. The same holds for the components of a returned tuple. A position below -n is an IndexError without a call. With negative and non-negative positions mixed, the call receives the values up to the last position k counted from the end, converted there, then from the first position q counted from the start on, converted there, with the values before q repeated when k >= q or k is the last: 2n values when -1 is given, otherwise n + max(0, k + 1 - q).", "quantifier": "all n, all functions, all lists of distinct positions with at least one negative", "why_tests_cant": "all arities", "anchors": ["paragami/function_patterns.py:TransformFunctionInput.__call__", "paragami/function_patterns.py:TransformFunctionOutput.__call__"]}
{"id": "C37", "title": "Wrapper construction checks", "statement": "Construction of an input or output wrapper succeeds exactly when patterns is a scalar or a list, argnums (retnums) is absent or a scalar or list of distinct integers as many as the patterns, and free is one flag or one flag per pattern; otherwise it raises ValueError.", "quantifier": "all lists of argnums, patterns, free flags", "why_tests_cant": "unbounded lists", "anchors": ["paragami/function_patterns.py:TransformFunctionInput._validate_args", "paragami/function_patterns.py:TransformFunctionOutput._validate_args"]}
{"id": "C38", "title": "Fold and flatten wrappers are inverse", "statement": "FoldFunctionInput(FlattenFunctionInput(f)) with the same patterns, free and argnums calls f with the original arguments, folded ones in canonical form, whenever those under free=True are interior and those under free=False flatten; FlattenFunctionInput(FoldFunctionInput(g)) calls g with exactly the original arguments whenever flat ones have the right length (free) or fold (non-free). The same for the results of output wrappers, for tuples and for single results.", "quantifier": "all functions, patterns, argument lists", "why_tests_cant": "functions and arities unbounded", "anchors": ["paragami/function_patterns.py:FoldFunctionInput", "paragami/function_patterns.py:FlattenFunctionInput", "paragami/function_patterns.py:FoldFunctionOutput", "paragami/function_patterns.py:FlattenFunctionOutput"]}
{"id": "C39", "title": "Wrapped outputs", "statement": "For every list of distinct non-negative retnums, the wrapped function calls the original once with its own arguments; an exception passes through; a tuple has exactly the components retnums[i] converted and all others in place, or the exception of the leftmost missing component or failing conversion; a result that is not a tuple is converted when retnums is [0], and is refused otherwise. Missing results and refused ones raise ValueError, or AttributeError when the original has no __name__ (as other wrappers have not) and there is at most one retnum.", "quantifier": "all functions, retnums, results", "why_tests_cant": "unbounded", "anchors": ["paragami/function_patterns.py:TransformFunctionOutput.__call__"]}
{"id": "C40", "title": "Combined input/output wrappers", "statement": "FlattenFunctionInputAndOutput(f) called with args calls f once with the folded inputs and returns f's result with the outputs flattened, and FoldFunctionInputAndOutput dually, for any patterns, positions and flags; failing input conversions raise without calling f.", "quantifier": "all functions, patterns, positions", "why_tests_cant": "unbounded", "anchors": ["paragami/function_patterns.py:FoldFunctionInputAndOutput", "paragami/function_patterns.py:FlattenFunctionInputAndOutput"]}
{"id": "C41", "title": "Numeric Jacobians are the true derivatives", "statement": "For every numeric pattern, freeing_jacobian and unfreeing_jacobian at an interior value are the matrices of partial derivatives of the flat-to-free and free-to-flat maps (limits of difference quotients), including the zero off-diagonal entries. On a bound the freeing derivative is inf and the unfreeing one 0, at an infinite entry of a one-sided pattern the other way round, and without bounds both are 1. Refuted: at the upper bound of a two-sided pattern, a valid value, the unfreeing Jacobian holds NaN.", "quantifier": "all shapes, bounds, interior points, all entries (i,j); entries on a bound or infinite", "why_tests_cant": "derivatives are limits", "anchors": ["paragami/numeric_array_patterns.py:_constrain_array_jacobian", "paragami/numeric_array_patterns.py:_unconstrain_array_jacobian", "paragami/numeric_array_patterns.py:NumericArrayPattern.freeing_jacobian/unfreeing_jacobian"]}
{"id": "C42", "title": "Simplex Jacobians are the true derivatives", "statement": "Same for SimplexArrayPattern, with one block per simplex and zeros elsewhere.", "quantifier": "all array shapes, simplex sizes, interior points, all entries", "why_tests_cant": "derivatives are limits; unbounded dimensions", "anchors": ["paragami/simplex_patterns.py:_constrain_simplex_jacobian", "paragami/simplex_patterns.py:_unconstrain_simplex_jacobian", "paragami/simplex_patterns.py:SimplexArrayPattern.freeing_jacobian/unfreeing_jacobian"]}
{"id": "C43", "title": "Freeing times unfreeing Jacobian is the identity", "statement": "At every interior value, freeing_jacobian @ unfreeing_jacobian is the identity of size flat_length(True), for every pattern tree. For PSD members it is enough that what autograd.jacobian returns is right along symmetric directions (freeing) and right (unfreeing).", "quantifier": "all patterns and interior values; every behaviour of autograd.jacobian that meets the condition", "why_tests_cant": "unbounded dimensions and nesting", "anchors": ["paragami/numeric_array_patterns.py:NumericArrayPattern", "paragami/simplex_patterns.py:SimplexArrayPattern", "paragami/pattern_containers.py:PatternDict.freeing_jacobian", "paragami/pattern_containers.py:PatternArray.freeing_jacobian"]}
{"id": "C44", "title": "Container Jacobians are block diagonal derivatives", "statement": "Container Jacobians have shape (flat_length(True), flat_length(False)) resp. transposed, are block diagonal in the flat layout, and are the true derivatives of the container maps. With PSD members this needs autograd.jacobian to be right there: if it returns the partial derivatives of the PSD transforms (which exist at every interior value), so does the container; a freeing Jacobian whose columns of mirrored entries agree, as autograd's do, is never the matrix of partial derivatives beyond size one, but if it is right along the directions that keep the PSD matrices symmetric, then the whole freeing Jacobian is right along all such directions.", "quantifier": "all containers, interior values, directions; every behaviour of autograd.jacobian that meets the condition", "why_tests_cant": "unbounded nesting", "anchors": ["paragami/pattern_containers.py:PatternDict.freeing_jacobian/unfreeing_jacobian", "paragami/pattern_containers.py:PatternArray.freeing_jacobian/unfreeing_jacobian"]}
{"id": "C45", "title": "Log determinants", "statement": "For numeric patterns and dictionaries of them log_abs_det_freeing_jacobian is the log absolute determinant (product of the diagonal) of the freeing Jacobian and the negative of log_abs_det_unfreeing_jacobian; any dictionary containing a simplex, PSD or array pattern raises NotImplementedError.", "quantifier": "all such patterns and interior values", "why_tests_cant": "unbounded nesting", "anchors": ["paragami/numeric_array_patterns.py:NumericArrayPattern.log_abs_det_freeing_jacobian", "paragami/pattern_containers.py:PatternDict.log_abs_det_freeing_jacobian", "paragami/base_patterns.py:Pattern.log_abs_det_freeing_jacobian"]}
{"id": "C46", "title": "PSD free flattening succeeds exactly on positive definite matrices", "statement": "flatten(free=True) of a symmetric finite matrix of the right shape with diagonal >= diag_lb succeeds if and only if matrix - diag_lb*I is positive definite, and raises LinAlgError otherwise; the Cholesky factor is the unique lower triangular one with positive diagonal.", "quantifier": "all sizes, all symmetric matrices", "why_tests_cant": "all dimensions, quadratic form quantifies over all vectors", "anchors": ["paragami/psdmatrix_patterns.py:_pack_posdef_matrix", "paragami/psdmatrix_patterns.py:PSDSymmetricMatrixPattern.flatten"]}
{"id": "C47", "title": "Validation accepts matrices that cannot be freed", "statement": "There are matrices that are positive definite, have diagonal strictly above diag_lb and validate, but whose free flattening raises LinAlgError.", "quantifier": "existence", "why_tests_cant": "needs the real linear algebra", "anchors": ["paragami/psdmatrix_patterns.py:PSDSymmetricMatrixPattern.validate_folded", "paragami/psdmatrix_patterns.py:_pack_posdef_matrix"]}
{"id": "C48", "title": "Lower triangle vectorisation", "statement": "Vectorising the lower triangle of a square matrix row by row and unvectorising are mutually inverse (up to zeroing the strict upper triangle), entry (i,j), j<=i is at index i(i+1)/2+j, and unvectorising rejects exactly the non-triangular lengths; the registered vjp is the adjoint of the map, raises IndexError for fewer than two axes, AssertionError when the first two lengths differ and ValueError for more than two axes, and the jvp is the map itself. The symmetric variant (lower triangle mirrored) builds a symmetric matrix and is inverse to vectorising on symmetric finite matrices, rejects the same lengths, and turns an infinite diagonal entry into NaN. The helper _sym_index is symmetric and numbers the unordered pairs of indices below n by 0, ..., n(n+1)/2 - 1, each once.", "quantifier": "all sizes and entries", "why_tests_cant": "all sizes", "anchors": ["paragami/psdmatrix_patterns.py:_vectorize_ld_matrix", "paragami/psdmatrix_patterns.py:_unvectorize_ld_matrix", "paragami/psdmatrix_patterns.py:_sym_index", "paragami/psdmatrix_patterns.py:_unvectorize_ld_matrix_vjp", "paragami/psdmatrix_patterns.py:_unvectorize_symmetric_matrix"]}
{"id": "C49", "title": "Preconditioned functions evaluate the original function", "statement": "In every state of a PreconditionedFunction reached by any history of preconditioner changes, calling it at x_c evaluates the original function at unprecondition(x_c); with mutually inverse operators precondition and unprecondition are inverse and f_c(precondition(x)) = f(x); the initial preconditioner is the identity.", "quantifier": "all histories of set_* calls, all vectors", "why_tests_cant": "unbounded histories and vectors", "anchors": ["paragami/optimization_lib.py:PreconditionedFunction"]}
{"id": "C50", "title": "Hessian preconditioner whitens", "statement": "With an orthonormal eigendecomposition of the symmetrised Hessian and positive (truncated) eigenvalues, the preconditioner A installed by set_preconditioner_with_hessian satisfies: precondition and unprecondition are inverse, A is symmetric, and A H_trunc A = I. A Hessian may also be a number (1x1) or a vector, row or column x, which is read, without an error, as the matrix of pairwise means (x_i + x_j)/2; that matrix is never positive definite for n >= 2. A rectangle that is neither a row nor a column is a ValueError, a sparse Hessian a NotImplementedError, and an exception of the Hessian function is passed on.", "quantifier": "all dimensions, all such Hessians, all truncation bounds", "why_tests_cant": "all dimensions", "anchors": ["paragami/optimization_lib.py:transform_eigenspace", "paragami/optimization_lib.py:_get_sym_matrix_inv_sqrt_funcs", "paragami/optimization_lib.py:PreconditionedFunction.set_preconditioner_with_hessian"]}
{"id": "C51", "title": "Eigenvalue truncation", "statement": "truncate_eigenvalues(e, lo, hi) keeps the length, with lo <= hi clamps every entry to [lo, hi] and leaves entries already inside unchanged, and does not modify its input; with lo > hi every entry becomes hi.", "quantifier": "all vectors and bounds", "why_tests_cant": "all vectors", "anchors": ["paragami/optimization_lib.py:truncate_eigenvalues"]}
{"id": "C52", "title": "Objective logging follows the call history", "statement": "After any sequence of f calls, set_print_every, set_log_every and resets, num_iterations is the number of successful f calls since the last reset of the counter, the log is exactly the list of (index, x, f(x)) for the calls since the last log reset whose index was divisible by the then current positive log_every, and every call returns f(x); a raising objective changes nothing.", "quantifier": "all operation histories, all objectives", "why_tests_cant": "unbounded histories", "anchors": ["paragami/optimization_lib.py:OptimizationObjective.f", "paragami/optimization_lib.py:OptimizationObjective.reset", "paragami/optimization_lib.py:OptimizationObjective.log_value"]}
{"id": "C53", "title": "grouped_sum", "statement": "For all arrays x of shape (N, ...) and integer labels in -K..K-1, where K is num_groups or one more than the largest label, grouped_sum returns shape (K, ...) and its row k is the sum of the rows x[n] whose label is k or k - K (negative labels count from the end). Labels of the wrong dimension, length or emptiness and a label >= num_groups raise ValueError; a label below -K raises IndexError. Float labels with integer values act as integers.", "quantifier": "all vectors, group labels, group counts", "why_tests_cant": "unbounded", "anchors": ["paragami/autograd_supplement_lib.py:grouped_sum"]}
{"id": "C54", "title": "grouped_sum derivatives", "statement": "For integer labels the registered jvp of grouped_sum is its exact derivative and the registered vjp is the adjoint of the jvp. For float labels the vjp raises IndexError although grouped_sum and the jvp work; for boolean labels the vjp is not the adjoint.", "quantifier": "all vectors, groups", "why_tests_cant": "unbounded", "anchors": ["paragami/autograd_supplement_lib.py:grouped_sum_vjp", "paragami/autograd_supplement_lib.py:grouped_sum_jvp", "paragami/autograd_supplement_lib.py:_ungroup"]}
{"id": "C55", "title": "replace and its derivatives", "statement": "replace(x_sub, x, inds) allocates a new array and changes no existing one; row k is the row of x_sub at the last position whose index selects k, else the row of x; a number as x_sub fills the selected rows; boolean masks act as the positions that are true; an index out of range raises IndexError. The jvps are the exact derivatives, and for vectors and pairwise distinct rows the vjps are their adjoints. With a repeated index, or with a number as x_sub, the first vjp is not the adjoint; for x with more than one axis the first jvp raises ValueError.", "quantifier": "all vectors and index lists", "why_tests_cant": "unbounded", "anchors": ["paragami/autograd_supplement_lib.py:replace"]}
{"id": "C56", "title": "Sparse products and solvers are differentiable at all orders", "statement": "z_mult, zt_mult returned by get_sparse_product are mutually adjoint linear maps and each registered jvp/vjp is again one of the two, equal to the true derivative/adjoint, so derivatives of every order are right; same for get_differentiable_solver given mutually transposed solvers.", "quantifier": "all matrices, vectors, derivative orders", "why_tests_cant": "all orders, dimensions", "anchors": ["paragami/autograd_supplement_lib.py:get_sparse_product", "paragami/autograd_supplement_lib.py:get_differentiable_solver"]}
{"id": "C57", "title": "Matrix jvps", "statement": "The jvps registered for inv (also on stacks) and solve (both arguments, vector and matrix right hand sides) are the true directional derivatives at every invertible matrix in every direction: nearby matrices are invertible and every family of inverses or solutions is differentiable with the returned derivative.", "quantifier": "all dimensions, invertible matrices, directions", "why_tests_cant": "limits, all dimensions", "anchors": ["paragami/autograd_supplement_lib.py:inv_jvp", "paragami/autograd_supplement_lib.py:jvp_solve"]}
{"id": "C58", "title": "flat_names", "statement": "For every usable pattern with string keys and either value of free, flat_names(free) succeeds with exactly flat_length(free) names (with int keys the only other outcome is a TypeError). Numeric patterns: name i is '[' + comma separated decimal numerals + ']' of the multi-index at row-major position i, for any free, the names are distinct, and the folded array has at the multi-index a name spells the flat entry the name labels. Simplexes, PSD matrices, arrays: name i is the numeral of i. Dictionaries: the names of a member are its own names behind key and delimiter, at the member's offset; names are distinct if no key+delimiter is a prefix of another, in particular if no key contains an underscore. Refuted: distinctness in general; that flat_names(None) agrees with flat_length(None) (a dictionary does not apply its own default; it does agree if all defaults in the tree agree).", "quantifier": "all usable patterns, all shapes, all keys, all delimiters, both free settings", "why_tests_cant": "unbounded trees and strings", "anchors": ["paragami/base_patterns.py:Pattern.flat_names", "paragami/numeric_array_patterns.py:NumericArrayPattern.flat_names", "paragami/pattern_containers.py:PatternDict.flat_names"]}
{"id": "C59", "title": "Constructors reject bad parameters", "statement": "NumericArrayPattern construction succeeds exactly when lb < ub (no NaN) and the shape is not empty-dimensional (); a NaN bound raises AssertionError, lb >= ub and the shape () raise ValueError; SimplexArrayPattern exactly when int(simplex_size) >= 2; PSDSymmetricMatrixPattern exactly when not diag_lb < 0; PatternArray exactly when the base is not a dictionary.", "quantifier": "all parameters", "why_tests_cant": "unbounded parameters", "anchors": ["paragami/numeric_array_patterns.py:NumericArrayPattern.__init__", "paragami/simplex_patterns.py:SimplexArrayPattern.__init__", "paragami/psdmatrix_patterns.py:PSDSymmetricMatrixPattern.__init__", "paragami/pattern_containers.py:PatternArray.__init__"]}
{"id": "C60", "title": "Fractional PSD sizes are mostly unusable", "statement": "PSDSymmetricMatrixPattern accepts a fractional size k + f (0 < f < 1): when f(2k+1+f) < 2 it behaves exactly as size k for free vectors, and otherwise no free vector of any length can be folded.", "quantifier": "all fractional sizes; all vectors", "why_tests_cant": "arithmetic over all sizes", "anchors": ["paragami/psdmatrix_patterns.py:PSDSymmetricMatrixPattern.__init__"]}
{"id": "C61", "title": "logsumexp", "statement": "logsumexp(v) equals log(sum(exp(v))) for every non-empty finite vector and never exponentiates a positive number; adding a constant to all entries adds it to the result.", "quantifier": "all vectors", "why_tests_cant": "unbounded", "anchors": ["paragami/simplex_patterns.py:logsumexp"]}
{"id": "C62", "title": "Sparse Hessian preconditioner", "statement": "Given S = P^T L with S S^T = H, the functions of get_sym_matrix_inv_sqrt_funcs are mutually inverse, mult_hess_sqrt^T mult_hess_sqrt = H, and installing them as preconditioner turns the quadratic form of H into the identity.", "quantifier": "all dimensions and factorizations", "why_tests_cant": "all dimensions", "anchors": ["paragami/sparse_preconditioners_lib.py:get_sym_matrix_inv_sqrt_funcs", "paragami/sparse_preconditioners_lib.py:_get_sparse_square_root_operators"]}
{"id": "C63", "title": "Matrix of an operator", "statement": "get_preconditioner(dim) is the matrix whose product with any vector equals applying the operator, for every linear operator and dim >= 1.", "quantifier": "all linear operators", "why_tests_cant": "all dimensions", "anchors": ["paragami/optimization_lib.py:_get_matrix_from_operator"]}
{"id": "C64", "title": "check_preconditioner", "statement": "check_preconditioner(vec, tol) raises ValueError exactly when the norm of vec - A(A_inv vec) exceeds tol; operators producing NaN pass the check. When the round trip has another length the check is a ValueError unless one of the two has length 1, which is broadcast.", "quantifier": "all operators, vectors, tolerances", "why_tests_cant": "NaN and all vectors", "anchors": ["paragami/optimization_lib.py:PreconditionedFunction.check_preconditioner"]}
{"id": "C65", "title": "Dictionary values may be in any key order and carry extra keys", "statement": "flatten, validate_folded and flat_indices on PatternDict depend only on the entries for the pattern keys: permuting the keys of the folded dictionary or adding keys changes nothing; a missing key makes validate_folded return False and flatten raise ValueError.", "quantifier": "all folded dictionaries, all permutations", "why_tests_cant": "unbounded", "anchors": ["paragami/pattern_containers.py:PatternDict.validate_folded", "paragami/pattern_containers.py:PatternDict.flatten"]}
{"id": "C66", "title": "Subclass instances of PatternDict escape locking", "statement": "Because members are locked only when type(member) is PatternDict, an instance of a subclass inserted in a dictionary stays unlocked; assigning to it later leaves the parent's flat_length stale.", "quantifier": "all heaps; all patterns of positive length", "why_tests_cant": "needs the cached-length semantics over aliasing histories", "anchors": ["paragami/pattern_containers.py:PatternDict.__setitem__"]}
{"id": "C67", "title": "Log entries and later writes", "statement": "OptimizationObjective's log keeps the argument array itself: if the caller writes to an array after it was evaluated, the logged pair (x, f(x)) no longer holds (the unconditional claim is refuted); in every history without such late writes each entry (i, x, y) satisfies y = f(x).", "quantifier": "all histories of calls and array writes", "why_tests_cant": "aliasing over unbounded histories", "anchors": ["paragami/optimization_lib.py:OptimizationObjective.log_value"]}
{"id": "C68", "title": "slogdet jvp", "statement": "At every invertible matrix and in every direction the second component of the jvp registered for slogdet is the derivative of log |det|, and the sign is constant nearby, so that the first component 0 is right; more than two dimensions raise ValueError.", "quantifier": "all dimensions, invertible matrices, directions", "why_tests_cant": "limits, all dimensions", "anchors": ["paragami/autograd_supplement_lib.py:slogdet_jvp"]}
{"id": "C69", "title": "Special function jvps", "statement": "Given that psi is the logarithmic derivative of gamma and polygamma(n+1) the derivative of polygamma(n), the jvps registered for gamma, gammaln, rgamma, psi, digamma, polygamma and gammasgn are the directional derivatives wherever gamma is regular.", "quantifier": "all regular points, directions, orders of polygamma", "why_tests_cant": "limits, all orders", "anchors": ["paragami/autograd_supplement_lib.py:19-27"]}
{"id": "C70", "title": "Numeric transforms in float64: at most one bound", "statement": "In binary64 arithmetic, folding a NaN-free free vector with at most one finite bound gives a NaN-free array that validate_folded accepts. For lb only (and symmetrically ub only) flatten(fold(x)) is within 2^-49 (1 + |x| + |lb| / exp x) of x when |x| <= 700 and |lb| <= 2^40 exp x; without bounds the round trip is exact. Without the relation between lb and x the round trip fails (refuted): for |lb| >= 1 every x <= -40 folds to lb and flattens to -inf.", "quantifier": "all bounds, all floats in the stated ranges, all exp/log routines with relative error 2^-50", "why_tests_cant": "2^64 inputs per bound, every libm", "anchors": ["paragami/numeric_array_patterns.py:_constrain_array", "paragami/numeric_array_patterns.py:_unconstrain_array"]}
{"id": "C71", "title": "Numeric transforms in float64: two bounds", "statement": "With finite bounds (of size at most 2^11) and x <= 700 the folded value is finite, at least lb and within 2^-49 (|lb| + |ub|) + 2^-1050 of the exact value; for bounds 0 and 1 it is within the bounds. In general it is not (refuted): with bounds -0.7 and 0.3 every x in [39, 709] folds to a value above ub that flatten rejects; for every finite x >= 711 and all finite bounds the folded value is NaN, which validation accepts.", "quantifier": "all bounds, all floats in the stated ranges, all exp routines with relative error 2^-50", "why_tests_cant": "2^64 inputs per pair of bounds, every libm", "anchors": ["paragami/numeric_array_patterns.py:_constrain_array", "paragami/numeric_array_patterns.py:NumericArrayPattern.validate_folded"]}
{"id": "C72", "title": "Simplex transform in float64", "statement": "For up to 1000 free entries between -100 and 100 the folded simplex passes validate_folded's 1e-12 test, every entry is within a relative 3e-13 of the exact softmax, and flatten returns the free values within 1e-12. For entries up to 2^1000 there is no NaN and no negative entry. Validity fails for large entries (refuted): the free vector (z, z) for integers 16384 <= z <= 131071 folds to a row whose sum is off by more than 1e-12, so flatten raises ValueError.", "quantifier": "all vectors, all summation orders, all exp/log routines with relative error 2^-50", "why_tests_cant": "unbounded inputs, every summation order and libm", "anchors": ["paragami/simplex_patterns.py:logsumexp", "paragami/simplex_patterns.py:_constrain_simplex_matrix", "paragami/simplex_patterns.py:SimplexArrayPattern.validate_folded"]}
{"id": "C73", "title": "PSD diagonal transform in float64", "statement": "exp(d) + d - d and log(l) + l - l, as computed on the diagonals, have an error of at most 2^-49 times (exp d + |d|) and (|log l| + l); off the diagonal both maps are exact. The error is not relative to the result (refuted round trips): for 1 x 1 matrices every free value <= -40 folds to diag_lb, which flatten rejects with LinAlgError, and every matrix entry >= 2^128 flattens to 0 and folds back to 1.", "quantifier": "all floats in the stated ranges, all exp/log routines with relative error 2^-50", "why_tests_cant": "2^64 inputs, every libm", "anchors": ["paragami/psdmatrix_patterns.py:_exp_matrix_diagonal", "paragami/psdmatrix_patterns.py:_log_matrix_diagonal", "paragami/psdmatrix_patterns.py:_unpack_posdef_matrix", "paragami/psdmatrix_patterns.py:_pack_posdef_matrix"]}
{"id": "C74", "title": "Optimizing over free vectors is optimizing over the constraint set", "statement": "For a usable pattern with free length n, fold(free=True) is a bijection between the real vectors of length n and the admissible values (strictly inside the constraints, in folded form). Hence for an objective f that returns a number on every admissible value, FlattenFunctionInput(f, patterns=p, free=True) returns a number at every real vector of length n, its value at x is f(fold(x)), and x is a minimiser of the wrapped objective over all of R^n if and only if fold(x) is a minimiser of f over the admissible values.", "quantifier": "all usable patterns, all objectives (with any state), all free vectors", "why_tests_cant": "A statement about all competitors: an optimum of one problem is an optimum of the other; it needs surjectivity of fold, which no finite set of points shows.", "anchors": ["paragami/function_patterns.py:FlattenFunctionInput", "paragami/base_patterns.py:Pattern.fold", "paragami/pattern_containers.py:PatternDict.fold"]}
{"id": "C75", "title": "Preconditioning does not change the minimisers", "statement": "If the preconditioner's two operators are mutually inverse matrices, then the preconditioned function returns a number at every vector, its value at z is f(unprecondition(z)), and z minimises the preconditioned function over all vectors if and only if unprecondition(z) minimises f.", "quantifier": "all preconditioner states with mutually inverse matrix operators, all objectives, all vectors of all lengths", "why_tests_cant": "A statement about all competitors; needs surjectivity of the preconditioner.", "anchors": ["paragami/optimization_lib.py:PreconditionedFunction.__call__"]}
{"id": "C76", "title": "Gradient of the free objective and stationary points", "statement": "If the objective, as a function of the flat folded entries, is differentiable at the entries of an interior value v with gradient g, then the free objective has partial derivatives at the free vector of v, and they are g times unfreeing_jacobian(v) (for patterns without PSD matrices unconditionally; with PSD matrices if autograd's Jacobian of the PSD transforms is right at v). If the pattern has as many free as folded entries, the free gradient is zero if and only if g is zero. For simplexes the free gradient is zero if and only if g is constant on each simplex, which is the Lagrange condition for the sum constraint.", "quantifier": "all usable patterns, all interior values, all objectives differentiable at the value", "why_tests_cant": "Derivatives are limits; the equivalence of stationarity quantifies over all gradients.", "anchors": ["paragami/function_patterns.py:FlattenFunctionInput", "paragami/pattern_containers.py:PatternDict.freeing_jacobian/unfreeing_jacobian", "paragami/simplex_patterns.py:_constrain_simplex_jacobian"]}
{"id": "C77", "title": "Random values are valid, and where they lie", "statement": "Pattern.random of a usable pattern draws exactly the free length of numbers from the generator, in order, and returns an admissible value that validates, with or without checking, and whose free flat vector is the drawn numbers; it never raises. A pattern whose length is a float (an emptied dictionary) raises TypeError and draws nothing. With draws from [0, 1), an entry of a random numeric array with no bound is in [0, 1), with a lower bound only in [lb + 1, lb + e), with an upper bound only in [ub - 1, ub - 1/e), and with two bounds it is never in the lower half of the interval.", "quantifier": "all usable patterns, all generators and generator states", "why_tests_cant": "All generator states; a range statement can only be sampled.", "anchors": ["paragami/base_patterns.py:Pattern.random"]}
{"id": "C78", "title": "Which results share memory with the arguments", "statement": "fold and flatten write into no memory that existed before the call. flatten (both values of free), fold with free=True, and fold of a PatternArray (both values of free) return new memory: later writes into the result never change the argument or any older array, and conversely. The arrays of one folded value never overlap. Fold with free=False of a pattern without PatternArray allocates nothing: its result is a view of the vector, so after any later change of the vector it reads as the fold of the new contents, and changing an entry of the vector always changes the folded value. The comment 'for consistent behavior, never return a reference' is therefore false of fold with free=False.", "quantifier": "all usable patterns, all vectors and folded values at any place of any heap, all later sequences of writes", "why_tests_cant": "Sharing only shows after a later write; all write sequences and all nestings cannot be tried.", "anchors": ["paragami/numeric_array_patterns.py:NumericArrayPattern.fold", "paragami/numeric_array_patterns.py:NumericArrayPattern.flatten", "paragami/numeric_array_patterns.py:_unconstrain_array", "paragami/numeric_array_patterns.py:_constrain_array", "paragami/simplex_patterns.py:SimplexArrayPattern.fold", "paragami/psdmatrix_patterns.py:PSDSymmetricMatrixPattern.fold", "paragami/pattern_containers.py:PatternDict.fold", "paragami/pattern_containers.py:PatternArray.fold", "paragami/pattern_containers.py:PatternDict.flatten", "paragami/pattern_containers.py:PatternArray.flatten"]}
{"id": "C79", "title": "What the text of a pattern shows", "statement": "str(pattern) is a text for every pattern whose dictionary keys are strings and raises TypeError if some key is not. Numeric arrays show Python's text of the shape tuple and of both bounds, simplexes the array shape and size, PSD matrices size and diag_lb, pattern arrays the shape and the base's text, dictionaries one line per member in order. Two patterns without dictionaries have the same text exactly if kind, shapes, sizes and bounds (including whether a bound is an int or a float) agree; defaults and the numeric class are not shown. False with dictionaries: members of a nested dictionary and members after it are shown alike, so unequal patterns have equal texts.", "quantifier": "all patterns, all correct texts of floats", "why_tests_cant": "Injectivity over all pairs of patterns cannot be tested; the collision needs a nested dictionary that is not last.", "anchors": ["paragami/numeric_array_patterns.py:NumericArrayPattern.__str__", "paragami/simplex_patterns.py:SimplexArrayPattern.__str__", "paragami/psdmatrix_patterns.py:PSDSymmetricMatrixPattern.__str__", "paragami/pattern_containers.py:PatternDict.__str__", "paragami/pattern_containers.py:PatternArray.__str__"]}
{"id": "C80", "title": "The messages of validation and what is wrong with them", "statement": "validate_folded returns an empty message exactly with True, a non-empty one exactly with False. A leaf names the first failing check in a fixed order; a PatternArray reports the first bad cell in row-major order with that cell's message; a dictionary reports the first member that is missing or invalid. False: that a PatternArray's wrong-shape messages call the pattern's shape expected (expected and got are swapped, always); that a dictionary's message names the invalid member (it does not contain the key, so different invalid members give equal messages); that the wrappers' errors about missing results state the number of results and the positions (the format is applied to the second half of the text only).", "quantifier": "all patterns, all values of any shape, any validate_value", "why_tests_cant": "Tests check the boolean; which cell or member is reported first depends on all others being valid.", "anchors": ["paragami/numeric_array_patterns.py:NumericArrayPattern.validate_folded", "paragami/simplex_patterns.py:SimplexArrayPattern.validate_folded", "paragami/psdmatrix_patterns.py:PSDSymmetricMatrixPattern.validate_folded", "paragami/pattern_containers.py:PatternDict.validate_folded", "paragami/pattern_containers.py:PatternArray.validate_folded", "paragami/function_patterns.py:TransformFunctionOutput.__call__"]}
{"id": "C81", "title": "Accessors agree with constructors, values and updates", "statement": "The accessors of a constructed pattern return the constructor's arguments, and the flat lengths are the closed-form products. shape() of a usable pattern is the shape of every value fold returns (free or not, any checking), of empty(valid=True), and its product is the flat length; validate_folded accepts only values of that shape, except that a numeric pattern of shape (1,) accepts a number. keys() are the keys of every folded value in order. Assigning a key keeps its place or appends it, deleting removes exactly it, and no other member changes. Every accessor exists exactly on its classes; elsewhere it is an AttributeError (indexing: a TypeError).", "quantifier": "all constructor arguments, all usable patterns, all vectors, all keys", "why_tests_cant": "Agreement of all accessors with all fold results over all nestings.", "anchors": ["paragami/numeric_array_patterns.py:NumericArrayPattern.shape", "paragami/numeric_array_patterns.py:NumericArrayPattern.bounds", "paragami/numeric_array_patterns.py:NumericVectorPattern.length", "paragami/simplex_patterns.py:SimplexArrayPattern.shape", "paragami/simplex_patterns.py:SimplexArrayPattern.array_shape", "paragami/simplex_patterns.py:SimplexArrayPattern.simplex_size", "paragami/psdmatrix_patterns.py:PSDSymmetricMatrixPattern.shape", "paragami/psdmatrix_patterns.py:PSDSymmetricMatrixPattern.size", "paragami/psdmatrix_patterns.py:PSDSymmetricMatrixPattern.diag_lb", "paragami/pattern_containers.py:PatternArray.shape", "paragami/pattern_containers.py:PatternArray.array_shape", "paragami/pattern_containers.py:PatternArray.base_pattern", "paragami/pattern_containers.py:PatternDict.keys", "paragami/pattern_containers.py:PatternDict.__getitem__", "paragami/pattern_containers.py:PatternDict.__setitem__", "paragami/pattern_containers.py:PatternDict.__delitem__"]}
{"id": "C82", "title": "The reader accepts exactly JSON", "statement": "A text is read exactly when it is JSON (an inductive grammar with white space, both cases of hexadecimal escapes, surrogate pairs, numbers, and Python's NaN and Infinity), and the value read is the one the grammar assigns; a key given twice keeps its first place and its last value. Every other text raises ValueError. The grammar assigns at most one value to a text. What is written escapes quotation mark, backslash and control characters by the short escapes, keeps printable ASCII, and writes everything else as lower-case four-digit escapes, in surrogate pairs beyond the first plane.", "quantifier": "all texts (lists of code points), all values, all float conversions", "why_tests_cant": "Acceptance is an equivalence over all strings; tests try the library's own output only.", "anchors": ["paragami/base_patterns.py:Pattern.from_json", "paragami/base_patterns.py:Pattern.to_json", "paragami/pattern_containers.py:get_pattern_from_json"]}
{"id": "C83", "title": "Descriptions not written by the library", "statement": "A description of a numeric or PSD pattern in any order builds what the constructor builds from its entries, with the constructor's defaults for missing lb, ub, diag_lb, default_validate and free_default; an unknown entry or a missing shape, length or size raises TypeError, and so does a bound that is null, a string, a list or an object (a NaN lower bound is noticed before a bad upper bound, AssertionError). A simplex description needs simplex_size, array_shape and default_validate (KeyError), and unknown entries and free_default are ignored. A PatternArray uses base_pattern and array_shape only: a contradicting shape entry is ignored; a base description that fails fails the same way. A PatternDict is built by assigning the members listed in keys in that order; contents not listed are ignored and a listed key without contents raises KeyError.", "quantifier": "all texts describing a pattern, all entries, all registries holding the built-in classes", "why_tests_cant": "Only texts produced by to_json are tested; hand-written ones differ in unboundedly many ways.", "anchors": ["paragami/base_patterns.py:Pattern.from_json", "paragami/numeric_array_patterns.py:NumericArrayPattern.__init__", "paragami/psdmatrix_patterns.py:PSDSymmetricMatrixPattern.__init__", "paragami/simplex_patterns.py:SimplexArrayPattern.from_json", "paragami/pattern_containers.py:PatternArray.from_json", "paragami/pattern_containers.py:PatternDict.from_json", "paragami/pattern_containers.py:get_pattern_from_json", "paragami/base_patterns.py:Pattern._validate_json_dict_type"]}
{"id": "C84", "title": "Folding PSD matrices of any size in float64", "statement": "Folding a free vector of an n x n PSD matrix in float64 gives finite entries, bitwise equal mirrored entries and diagonal entries >= diag_lb, so the matrix passes its own validation; every entry differs from the exact (L L^T)_ij + diag_lb delta_ij by at most 2^-52 ((n + 18) sum_k M_ik M_jk + |diag_lb| delta_ij) + n 2^-1072, where M holds |x| off the diagonal and exp x + |x| on it. Outside the range 'every folded matrix is valid' is refuted: a diagonal free value >= 711 above a zero gives NaN and fails validation.", "quantifier": "all n <= 10^6, all free vectors with finite entries up to 2^400 and diagonal entries up to 250, all finite bounds up to 2^1000, all exp routines with relative error 2^-50, all orders of summation in the matrix product, with or without fused multiply-adds", "why_tests_cant": "all sizes, 2^64 values per entry, every libm and BLAS", "anchors": ["paragami/psdmatrix_patterns.py:_unvectorize_ld_matrix", "paragami/psdmatrix_patterns.py:_exp_matrix_diagonal", "paragami/psdmatrix_patterns.py:_unpack_posdef_matrix", "paragami/psdmatrix_patterns.py:PSDSymmetricMatrixPattern.validate_folded"]}
{"id": "C85", "title": "Infinite free values and values on the boundary", "statement": "The free transforms extend to the boundary they attain: in a number -inf stands for its finite lower bound, or for -inf if it has none; +inf stands for the finite upper bound of a number without a finite lower one, or for +inf if the number has no finite upper bound; in a simplex -inf stands for a zero entry other than the first. Any free vector of such entries, anywhere in a nested pattern, folds to a value on the boundary, the value validates, and flattening gives the vector back; conversely every such boundary value flattens to such a vector and folds back. What cannot be represented becomes NaN: +inf between two finite bounds (that entry), +inf in a simplex (that simplex and no other), any infinity on the diagonal of a PSD matrix's free form (that row and column), any infinity below the diagonal in column j (the entries of that row and column before j). NaN from the first is accepted by validation, so 'what a free vector folds to is rejected or flattens back to it' is refuted; NaN in a PSD matrix is rejected, but an infinity in the first column can give an infinite matrix that validates and then fails in the Cholesky decomposition. logsumexp ignores -inf entries, and is NaN if all are -inf or one is +inf.", "quantifier": "all usable patterns, all free vectors with infinities and all boundary values, all shapes and nestings, both validation settings", "why_tests_cant": "unbounded nesting and every placement of infinities; the repository's tests only use finite values in the interior", "anchors": ["paragami/numeric_array_patterns.py:_constrain_array", "paragami/numeric_array_patterns.py:_unconstrain_array", "paragami/simplex_patterns.py:logsumexp", "paragami/simplex_patterns.py:_constrain_simplex_matrix", "paragami/simplex_patterns.py:_unconstrain_simplex_matrix", "paragami/psdmatrix_patterns.py:_exp_matrix_diagonal"]}
{"id": "C86", "title": "Reverse mode through the PSD transforms", "statement": "Running the chain rule backwards through _unpack_posdef_matrix (unvectorise, exponentiate the diagonal, multiply by the transpose, add the lower bound) at any free vector gives the product of the cotangent with the matrix of partial derivatives; through _pack_posdef_matrix (Cholesky, log of the diagonal, vectorise) at any symmetric matrix in the interior it gives a symmetric matrix whose inner product with each symmetric direction is the derivative of the weighted free vector along that direction. Stacking the passes for all basis vectors, unfreeing_jacobian of every nested pattern is the matrix of partial derivatives, freeing_jacobian gives the derivative along every direction keeping the matrices symmetric, and the two are inverse; freeing_jacobian of a matrix of size two or more is never the matrix of partial derivatives, because mirrored entries share the derivative. Gradients of objectives of the free vector are the gradients of the folded objective pulled back by this Jacobian, and for a PSD pattern one backward pass computes them.", "quantifier": "all usable nested patterns with non-empty simplexes and PSD matrices, all interior values, all cotangents, all matrix sizes, every solver of triangular systems", "why_tests_cant": "the tests compare autograd with itself at a few random matrices; agreement with limits in all directions at all sizes is a statement about derivatives", "anchors": ["paragami/psdmatrix_patterns.py:_unpack_posdef_matrix", "paragami/psdmatrix_patterns.py:_pack_posdef_matrix", "paragami/psdmatrix_patterns.py:_exp_matrix_diagonal", "paragami/psdmatrix_patterns.py:_log_matrix_diagonal", "paragami/psdmatrix_patterns.py:_unvectorize_ld_matrix_vjp", "paragami/base_patterns.py:Pattern.freeing_jacobian", "paragami/base_patterns.py:Pattern.unfreeing_jacobian"]}
{"id": "C87", "title": "Optimality in free coordinates", "statement": "At an interior value, the directions along which one can move both ways without leaving the constraints are exactly the vectors that are arbitrary on numbers, sum to zero on each simplex and are symmetric on each PSD matrix, and these are exactly the products of unfreeing_jacobian with free vectors. Hence the gradient of the free objective is zero exactly when the gradient in the flat vector is orthogonal to all these directions (for one PSD matrix: when its symmetric part is zero); it is zero at every local minimum under the constraints. The flat vectors inside the constraints form a convex set, and if the objective is convex on it, the free gradient is zero exactly at the global minima under the constraints, which are exactly the global minima of the free objective - although the free objective need not be convex (refuted).", "quantifier": "all usable nested patterns with non-empty simplexes, all interior values, all objectives differentiable there", "why_tests_cant": "the tests run optimisers on a few objectives; that no constrained descent direction is lost by the free parameterisation is a statement about all directions and objectives", "anchors": ["paragami/base_patterns.py:Pattern.unfreeing_jacobian", "paragami/simplex_patterns.py:_constrain_simplex_jacobian", "paragami/psdmatrix_patterns.py:PSDSymmetricMatrixPattern.fold", "paragami/numeric_array_patterns.py:_constrain_array_jacobian", "paragami/function_patterns.py:FlattenFunctionInput"]}
{"id": "C88", "title": "Flattening PSD matrices of any size in float64", "statement": "Flattening a symmetric n x n matrix A in float64 (validation, Cholesky of A - diag_lb I, logarithm of the diagonal as log l + l - l, lower triangle) is backward stable: when it succeeds the exact fold of the result differs from A at i, j by at most 2^-50 (n + 1 + 17 M) sqrt(D_i D_j), D the diagonal of A minus diag_lb and M = exp x + |x| for the diagonal free value x of row min(i, j), whatever the condition number; folding it again in float64 gives A back up to that plus the bound of C84. A is accepted if z^T (A - diag_lb I) z >= 2^-49 (n + 1) (sum_i |z_i| sqrt D_i)^2 for all z, and gives LinAlgError if some z makes it less than -2^-50 (n + 1) times the same square. Without margins both are refuted: an exactly positive definite 2 x 2 matrix of integers is always rejected and an exactly indefinite one always accepted. 1 x 1 matrices give the transform of C73; an infinite first entry gives a NaN free value where flatten succeeds.", "quantifier": "all n <= 10^6, all matrices of finite entries with off-diagonal entries up to 2^400 and diagonal minus bound in [2^-800, 2^400] (up to 2^80 for the accuracy statements), all log and exp routines with relative error 2^-50, all Cholesky routines that build the factor column by column with any order and grouping of the subtractions, with or without fused multiply-adds, dividing or multiplying by reciprocals; all real test vectors z", "why_tests_cant": "all sizes, 2^64 values per entry, every libm and LAPACK; failures sit in a band of rounding size", "anchors": ["paragami/psdmatrix_patterns.py:_vectorize_ld_matrix", "paragami/psdmatrix_patterns.py:_log_matrix_diagonal", "paragami/psdmatrix_patterns.py:_pack_posdef_matrix", "paragami/psdmatrix_patterns.py:PSDSymmetricMatrixPattern.flatten", "paragami/psdmatrix_patterns.py:PSDSymmetricMatrixPattern.validate_folded"]}
{"id": "C89", "title": "Whole patterns in float64: fold, validate_folded, flatten", "statement": "For any pattern tree of numeric arrays, simplexes, PSD matrices, pattern arrays and dictionaries, free folding in float64 succeeds exactly when the length is flat_length, raises the same exception as exact folding otherwise, and gives an array or dictionary of the same shape whose every leaf entry is close to that of the exact fold: numeric within 2^-49 (|r| + |lb| + |ub|) + 2^-1050, simplex within a relative 3e-13, matrices within 2^-52 (n + 18) (sqrt d_i + 100) (sqrt d_j + 100) plus 2^-52 |lb| on the diagonal, d the exact diagonal minus bound. If each numeric leaf lacks a bound or has the bounds 0 and 1, validate_folded in float64 accepts the result. Its verdict on any float64 value, NaN and infinities included, is that of exact validation if no simplex sum is within about 5e-13 of 1 +- 1e-12, and flatten raises accordingly; valid values away from the bounds with matrices positive definite by C88's margin are flattened. Float bounds and integers below 2^53 are used exactly. Conversely when flatten in float64 succeeds on a value away from the bounds, the free vector has flat_length finite entries and its exact fold agrees with the value at every leaf, with errors relative to the distance to the bound (numeric), to the entry (simplex, 1e-11) and to sqrt(D_i D_j) (matrices); folding it again in float64 adds the error of folding.", "quantifier": "all usable pattern trees with bounds that are floats of size up to 2048 (2^1000 for diag_lb), simplexes of up to 1001 entries, matrices of up to 10^6 rows, any number and nesting of leaves; all free vectors with entries between -100 and 100; all folded values between 2^-100 and 2^100 from finite bounds; all routines for exp, log, sums, products and Cholesky meeting the contracts of C70, C72, C84 and C88", "why_tests_cant": "all trees, 2^64 values per entry, every libm and LAPACK", "anchors": ["paragami/pattern_containers.py:PatternDict.fold", "paragami/pattern_containers.py:PatternDict.flatten", "paragami/pattern_containers.py:PatternDict.validate_folded", "paragami/pattern_containers.py:PatternArray.fold", "paragami/pattern_containers.py:PatternArray.flatten", "paragami/pattern_containers.py:PatternArray.validate_folded", "paragami/numeric_array_patterns.py:NumericArrayPattern.fold", "paragami/numeric_array_patterns.py:NumericArrayPattern.flatten", "paragami/simplex_patterns.py:SimplexArrayPattern.fold", "paragami/simplex_patterns.py:SimplexArrayPattern.flatten", "paragami/psdmatrix_patterns.py:PSDSymmetricMatrixPattern.fold", "paragami/psdmatrix_patterns.py:PSDSymmetricMatrixPattern.flatten"]}
{"id": "C90", "title": "Jacobians and log determinants in float64", "statement": "For any pattern tree of numeric arrays, nonempty simplexes, pattern arrays and dictionaries, freeing_jacobian and unfreeing_jacobian in float64 return a matrix of the exact Jacobian's shape (flat length by flat length), every entry finite; entries of the freeing Jacobian are within 2^-49 relatively of the exact ones, those of the unfreeing Jacobian within 2^-38 times the distance of the row's entry to its bound (for simplexes, times the entry). For numeric trees of n up to 2^20 entries log_abs_det_freeing_jacobian is finite and within 2^-43 n + 2^-45 n^2 of the exact value, and so is log_abs_det_unfreeing_jacobian within 2^-26 n + 2^-45 n^2 if doubly bounded entries are no more than 1000 times closer to the upper bound; other trees raise NotImplementedError. A dictionary without members or an array pattern of size zero raises ValueError from block_diag. Without the last condition that is false: when a doubly bounded entry is 2^57 times closer to its upper bound its row of the unfreeing Jacobian is zero and log_abs_det_unfreeing_jacobian is -inf, though the exact value is finite.", "quantifier": "all usable pattern trees without PSD matrices, with bounds that are floats and simplexes of up to 1001 entries, any number and nesting of leaves; all folded values between 2^-100 and 2^100 from finite bounds; all routines for exp, log and sums meeting the contract of C70 and C72", "why_tests_cant": "all trees, 2^64 values per entry, every libm", "anchors": ["paragami/pattern_containers.py:PatternDict.freeing_jacobian", "paragami/pattern_containers.py:PatternDict.unfreeing_jacobian", "paragami/pattern_containers.py:PatternDict.log_abs_det_freeing_jacobian", "paragami/pattern_containers.py:PatternDict.log_abs_det_unfreeing_jacobian", "paragami/pattern_containers.py:PatternArray.freeing_jacobian", "paragami/pattern_containers.py:PatternArray.unfreeing_jacobian", "paragami/numeric_array_patterns.py:_constrain_array_jacobian", "paragami/numeric_array_patterns.py:_unconstrain_array_jacobian", "paragami/numeric_array_patterns.py:NumericArrayPattern.log_abs_det_freeing_jacobian", "paragami/numeric_array_patterns.py:NumericArrayPattern.log_abs_det_unfreeing_jacobian", "paragami/simplex_patterns.py:SimplexArrayPattern.freeing_jacobian", "paragami/simplex_patterns.py:SimplexArrayPattern.unfreeing_jacobian"]}
{"id": "C91", "title": "Second-order behaviour in free coordinates", "statement": "The unfreeing transform is totally differentiable at every interior value and unfreeing_jacobian J is its derivative. Hence at a value where the gradient of the objective in the flat vector is orthogonal to all directions that keep the constraints, the free objective (FlattenFunctionInput with free=True) has gradient zero and Hessian J^T M J, with M the Hessian in the flat vector: no second derivatives of the transforms enter, also for simplexes and PSD matrices. J^T M J is positive definite exactly when M is positive along all directions that keep the constraints, and then the value is a strict local minimum of the free objective and of the objective under the constraints; at any local minimum under the constraints the free Hessian is positive semidefinite. Where the gradient is not orthogonal, the free Hessian need not be J^T M J (refuted).", "quantifier": "all usable nested patterns with non-empty simplexes, all interior values, all objectives with a second-order expansion there", "why_tests_cant": "the tests look at Hessians of a few objectives at a few points; that stationarity makes the curvature of the transforms drop out, and that definiteness agrees, is a statement about all objectives and all directions", "anchors": ["paragami/base_patterns.py:Pattern.unfreeing_jacobian", "paragami/simplex_patterns.py:_constrain_simplex_matrix", "paragami/simplex_patterns.py:_constrain_simplex_jacobian", "paragami/psdmatrix_patterns.py:PSDSymmetricMatrixPattern.fold", "paragami/numeric_array_patterns.py:_constrain_array_jacobian", "paragami/function_patterns.py:FlattenFunctionInput"]}
{"id": "C92", "title": "Free vectors survive fold and flatten in float64", "statement": "For any pattern tree, folding a free vector in float64 gives a value that validate_folded accepts (whatever validate_value is) and flatten brings back every entry of the free vector, within a stated error. An unbounded number comes back exactly; with one bound b the error is at most 2^-49 (1 + |x| + |b| e^(-+x)); with two bounds at most 2^-45 (1 + |x| + |ln(ub - lb)| + (|lb| + |ub|)/d), d the distance to the bounds, up to a factor of 2; in simplexes it is at most 1e-12; in an n x n matrix entry (i, j) is within 2^-46 (n + 20) K^2 r_i, with r_i the size of row i of the factor and K the condition number of the factor after scaling its rows to size 1. The conditions are that the bounds are at most 2^40 d (or 2^40 e^(+-x)) and that n (n + 20) K^2 is at most 2^46. Without them the round trip fails: with the lower bound 1, the free value -40 comes back as -inf (refuted).", "quantifier": "all usable pattern trees as in C89, all free vectors with entries between -100 and 100 meeting the conditions, all routines for exp, log, sums, products and Cholesky meeting the contracts of C70, C72, C84 and C88, all values of validate_value", "why_tests_cant": "the tests check fold and flatten against each other at a few random points with a tolerance; how the error depends on the distance to the bounds and the conditioning of the matrix, and where it becomes infinite, needs an error analysis over all trees and all float64 values", "anchors": ["paragami/pattern_containers.py:PatternDict.fold", "paragami/pattern_containers.py:PatternDict.flatten", "paragami/pattern_containers.py:PatternArray.fold", "paragami/pattern_containers.py:PatternArray.flatten", "paragami/numeric_array_patterns.py:_constrain_array", "paragami/numeric_array_patterns.py:_unconstrain_array", "paragami/simplex_patterns.py:_constrain_simplex_matrix", "paragami/simplex_patterns.py:_unconstrain_simplex_matrix", "paragami/psdmatrix_patterns.py:_pack_posdef_matrix", "paragami/psdmatrix_patterns.py:_unpack_posdef_matrix"]}
{"id": "C93", "title": "Preconditioning with the Hessian makes the curvature the identity", "statement": "Calling a PreconditionedFunction whose preconditioner is multiplication by a matrix A gives a function whose second-order expansion at z has gradient A^T g and Hessian A^T M A, with g and M those of the original function at unprecondition(z). After set_preconditioner_with_hessian with the Hessian at x (given, or computed there), the preconditioned function has at precondition(x) the same eigenvectors, and each eigenvalue divided by its value after ev_min and ev_max: so the identity without bounds, and with bounds no two positive eigenvalues are further apart than they were. At a stationary point under the constraints of a pattern with positive curvature along them, the Hessian of FlattenFunctionInput(f, pattern, free=True) is accepted, and the preconditioned free objective has gradient zero and Hessian the identity there.", "quantifier": "all functions with a second-order expansion, all linear preconditioners, all dimensions, all bounds that leave positive eigenvalues; for the last part all usable pattern trees, all objectives, all stationary points with positive curvature along the constraints", "why_tests_cant": "the tests compare one random quadratic function with its preconditioned Hessian numerically; that the curvature becomes the identity for every smooth function, every pattern and every spectrum needs a proof", "anchors": ["paragami/optimization_lib.py:PreconditionedFunction.set_preconditioner_with_hessian", "paragami/optimization_lib.py:PreconditionedFunction.precondition", "paragami/optimization_lib.py:PreconditionedFunction.unprecondition", "paragami/optimization_lib.py:PreconditionedFunction.__call__", "paragami/optimization_lib.py:_get_sym_matrix_inv_sqrt_funcs", "paragami/optimization_lib.py:transform_eigenspace", "paragami/optimization_lib.py:truncate_eigenvalues", "paragami/function_patterns.py:FlattenFunctionInput"]}
{"id": "C94", "title": "Grouped sums and logsumexp in float64", "statement": "In float64, grouped_sum returns in entry [k, j] the sum, added to zero one after the other with rounding and in the order of the observations, of the x[n, j] whose label names group k (a negative label counts from the end); an empty group gives zero. It raises an exception exactly when, and the same one as, the exact sum of C53. For finite members the error is at most len 2^-52 times the sum of their absolute values; whole numbers with absolute values adding up to less than 2^53 are summed exactly; a NaN makes the sum of its group NaN. The sum may depend on the order of the observations (refuted otherwise). logsumexp of a non-empty row of n finite doubles of any size, even when subtracting the maximum overflows, is finite and within n 2^-46 + 2^-53 |L| of the exact value L.", "quantifier": "all float64 arrays of any shape, all integer labels in range, any number of groups; for the error bounds up to 2^20 finite members of total size up to 2^1000; for logsumexp all rows of up to 2^20 finite doubles and all routines for exp, log and sums meeting the contract of C70 and C72", "why_tests_cant": "the tests compare a few random arrays within a tolerance; that no finite row overflows and that the error stays within the bound for all rows is an error analysis over all doubles", "anchors": ["paragami/autograd_supplement_lib.py:grouped_sum", "paragami/simplex_patterns.py:logsumexp"]}
{"id": "C95", "title": "Free simplex coordinates of any size in float64", "statement": "In float64, folding n free simplex coordinates of absolute value at most B gives finite non-negative entries, each within p (n 2^-43 + B 2^-51) + 2^-48 of the exact softmax entry p (n counting the added zero), with a sum within n 2^-42 + B 2^-51 of one: the loss is proportional to the size of the coordinates. A coordinate +inf or NaN makes logsumexp and every entry of the simplex NaN. Coordinates -inf give entries exactly zero, and logsumexp and the other entries keep their error bounds with the exact values taken over the finite coordinates. That flattening and folding return every valid simplex is refuted: one whose first entry is zero flattens to +inf for each positive and NaN for each zero entry, which folds to all NaN. A zero entry elsewhere, with the first entry positive, flattens to -inf and folds back to exactly zero.", "quantifier": "all rows of up to 2^20 - 1 finite coordinates with 0 <= B <= 2^50; the same with any of the coordinates -inf; all rows with +inf or NaN; all valid simplexes of finite entries, of length two or more when the first entry is zero and up to 2^20 otherwise; all routines for exp, log and sums meeting the contract of C70 and C72", "why_tests_cant": "the tests fold a few random coordinates of moderate size; how the error grows with the size of the coordinates, and where it turns into NaN, is a statement about all doubles", "anchors": ["paragami/simplex_patterns.py:logsumexp", "paragami/simplex_patterns.py:_constrain_simplex_matrix", "paragami/simplex_patterns.py:_unconstrain_simplex_matrix", "paragami/simplex_patterns.py:SimplexArrayPattern.fold", "paragami/simplex_patterns.py:SimplexArrayPattern.flatten"]}
