{"id": "C01", "title": "FzHashMap lookup returns the last value supplied for the key", "statement": "For a FzHashMap built from any vector of entries with any BuildHasher, get(q) returns Some(v) exactly when some supplied entry's key is equivalent to q, and v is then the value of the LAST such entry in the vector; otherwise it returns None. Construction succeeds whenever the vector has at most usize::MAX entries.", "quantifier": "every entry vector (any length, any duplicates, any collisions), every lawful Eq/Hash key type, every hash function, every query value whose Hash/Equivalent agree with the key type", "why_tests_cant": "The slot table depends on the hash codes of all keys together; collisions, duplicate keys and table sizing interact, and tests only sample a few hashers and sizes.", "anchors": ["frozen-collections-core/src/fz_maps/fz_hash_map.rs: FzHashMap::with_hasher, get", "frozen-collections-core/src/maps/hash_map.rs: HashMap::from_dedupped", "frozen-collections-core/src/hash_tables/hash_table.rs: HashTable::new", "frozen-collections-core/src/hash_tables/decl_macros.rs: find", "frozen-collections-core/src/utils/dedup.rs: using_hash", "frozen-collections-core/src/analyzers/hash_code_analyzer.rs"]}
{"id": "C02", "title": "FzOrderedMap lookup returns the last value supplied for the key", "statement": "For a FzOrderedMap built from any vector of entries, get(q) returns Some(v) exactly when a supplied key compares Equal to q, and v is the value of the last such entry; otherwise None. This holds for every number of entries.", "quantifier": "every entry vector, every key type with a lawful total order, every query consistent with that order", "why_tests_cant": "The Eytzinger permutation and the branch-free descent depend on the exact length; off-by-one errors show only at particular sizes or for particular missing keys.", "anchors": ["frozen-collections-core/src/fz_maps/fz_ordered_map.rs: FzOrderedMap::new, get", "frozen-collections-core/src/maps/eytzinger_search_map.rs", "frozen-collections-core/src/utils/eytzinger.rs", "frozen-collections-core/src/utils/dedup.rs: SortedAndDeduppedVec::new"]}
{"id": "C03", "title": "FzScalarMap lookup returns the last value supplied for the key", "statement": "For a FzScalarMap built from any vector of entries whose scalar indices do not span the whole usize range, get(k) returns the value of the last supplied entry with key k, or None when there is none, whichever of the dense, sparse or hashed forms is selected.", "quantifier": "every entry vector over any scalar key type whose order agrees with its index, span (max index - min index) below usize::MAX, every query key", "why_tests_cant": "Representation is chosen from the data; wrong boundary tests in dense/sparse range checks show only for queries just outside the range or inside the holes.", "anchors": ["frozen-collections-core/src/fz_maps/fz_scalar_map.rs: FzScalarMap::new, get", "frozen-collections-core/src/analyzers/scalar_key_analyzer.rs", "frozen-collections-core/src/maps/dense_scalar_lookup_map.rs", "frozen-collections-core/src/maps/sparse_scalar_lookup_map.rs", "frozen-collections-core/src/maps/decl_macros.rs: dense_scalar_lookup_primary_funcs, sparse_scalar_lookup_primary_funcs"]}
{"id": "C04", "title": "FzStringMap lookup returns the last value supplied for the key", "statement": "For a FzStringMap built from any vector of string keys with any BuildHasher, get(s) returns the value of the last supplied entry whose key equals s byte for byte, or None; the result does not depend on which substring of the keys was selected for hashing.", "quantifier": "every vector of strings (any lengths, shared prefixes/suffixes, empty strings, duplicates), every BuildHasher, every query string of any length", "why_tests_cant": "The hash range is derived from the key set; a query shorter than the range, or differing only outside it, exercises paths that samples rarely reach.", "anchors": ["frozen-collections-core/src/fz_maps/fz_string_map.rs: FzStringMap::with_hasher, get", "frozen-collections-core/src/analyzers/slice_key_analyzer.rs", "frozen-collections-core/src/hashers/left_range_hasher.rs", "frozen-collections-core/src/hashers/right_range_hasher.rs"]}
{"id": "C05", "title": "Scan maps return the last value supplied for the key", "statement": "For a ScanMap built from any vector of entries, get/get_key_value return the last supplied entry whose key is equivalent to the query, or None. The same holds for an InlineScanMap whose declared size equals the number of distinct keys.", "quantifier": "every entry vector, every lawful Eq key type, every query", "why_tests_cant": "Needs all positions of duplicates and matches, not samples.", "anchors": ["frozen-collections-core/src/maps/scan_map.rs", "frozen-collections-core/src/inline_maps/inline_scan_map.rs", "frozen-collections-core/src/maps/decl_macros.rs: scan_primary_funcs", "frozen-collections-core/src/utils/dedup.rs: using_eq"]}
{"id": "C06", "title": "DenseScalarLookupMap accepts exactly contiguous key sets and answers exactly", "statement": "DenseScalarLookupMap::new returns Ok exactly when the set of distinct key indices is empty or a contiguous range (and the range size is representable), and then get(k) is the last supplied value for k or None; otherwise it returns Err.", "quantifier": "every entry vector of scalar keys with span below usize::MAX, every query key", "why_tests_cant": "Gaps and duplicates can cancel out in the count; only a universal statement shows that equality of count and span implies contiguity.", "anchors": ["frozen-collections-core/src/maps/dense_scalar_lookup_map.rs: new, from_sorted_and_dedupped", "frozen-collections-core/src/maps/decl_macros.rs: dense_scalar_lookup_primary_funcs"]}
{"id": "C07", "title": "SparseScalarLookupMap answers exactly over the whole key domain", "statement": "For a SparseScalarLookupMap built from any entries whose span is representable, get(k) is the last supplied value for k, or None, including for keys in gaps, below the minimum and above the maximum.", "quantifier": "every entry vector of scalar keys with span below usize::MAX, every query key", "why_tests_cant": "Correctness of the offset table (index+1, zero meaning absent) is a statement about every hole and border.", "anchors": ["frozen-collections-core/src/maps/sparse_scalar_lookup_map.rs: new, from_sorted_and_dedupped", "frozen-collections-core/src/maps/decl_macros.rs: sparse_scalar_lookup_primary_funcs"]}
{"id": "C08", "title": "HashMap magnitude limit is exact and lossless", "statement": "HashMap::with_hasher for magnitude M (small 255, medium 65535, large usize::MAX) returns Err exactly when the number of distinct keys exceeds M's capacity; when it returns Ok every distinct key can be found, so no index was truncated on narrowing.", "quantifier": "every magnitude, every entry vector, every hash function, every order an unstable sort may produce", "why_tests_cant": "The narrowing conversion falls back to zero silently; showing the fallback is unreachable needs all sizes up to and at the limit for every collision pattern.", "anchors": ["frozen-collections-core/src/hash_tables/hash_table.rs: HashTable::new", "frozen-collections-core/src/traits/collection_magnitude.rs", "frozen-collections-core/src/maps/hash_map.rs: with_hasher, from_dedupped"]}
{"id": "C09", "title": "Frozen sets contain exactly the supplied values", "statement": "For FzHashSet, FzOrderedSet, FzScalarSet and FzStringSet built from a vector of values, contains(q) is true exactly when a supplied value is equivalent to q, and get(q) (where public) then returns the last such supplied value.", "quantifier": "every value vector, every lawful element type and hasher, every query", "why_tests_cant": "Same as for maps; plus which of several equal representatives is retained.", "anchors": ["frozen-collections-core/src/fz_sets/fz_hash_set.rs", "frozen-collections-core/src/fz_sets/fz_ordered_set.rs", "frozen-collections-core/src/fz_sets/fz_scalar_set.rs", "frozen-collections-core/src/fz_sets/fz_string_set.rs"]}
{"id": "C10", "title": "Iteration yields every distinct key once with its last value", "statement": "Iterating any frozen map (iter, into_iter, and keys/values as projections in the same order) yields for each distinct supplied key exactly one entry, that of the last supplied occurrence, and nothing else.", "quantifier": "every entry vector, all four Fz map types and the scan, ordered, dense, sparse and hash maps they are made of", "why_tests_cant": "Layout code permutes entries in place (Eytzinger cycles, slot grouping, dedup retain); loss or duplication of one element can depend on global structure.", "anchors": ["frozen-collections-core/src/maps/iterators.rs", "frozen-collections-core/src/maps/decl_macros.rs: common_primary_funcs", "frozen-collections-core/src/utils/eytzinger.rs: eytzinger_layout", "frozen-collections-core/src/hash_tables/hash_table.rs: HashTable::new", "frozen-collections-core/src/utils/dedup.rs"]}
{"id": "C11", "title": "len is the number of distinct keys", "statement": "len() equals the number of distinct supplied keys and the number of items iteration yields; is_empty() is true exactly when no entry was supplied.", "quantifier": "every entry vector, all frozen maps and sets", "why_tests_cant": "Counts after dedup must agree with every dedup strategy for arbitrary duplicate patterns.", "anchors": ["frozen-collections-core/src/traits/len.rs", "frozen-collections-core/src/maps/decl_macros.rs: common_primary_funcs", "frozen-collections-core/src/utils/dedup.rs"]}
{"id": "C12", "title": "Mutation through references touches exactly one value", "statement": "Writing through get_mut(k) changes the value associated with k and nothing else: afterwards every get of an equivalent key returns the new value, all other lookups, the set of keys, len and iteration order are unchanged. A get_mut on an absent key returns None. iter_mut and values_mut visit each value once, in iteration order.", "quantifier": "every built map of each kind, every key, every new value, any sequence of such writes", "why_tests_cant": "Requires statement over all histories of writes and all keys.", "anchors": ["frozen-collections-core/src/maps/decl_macros.rs: get_mut in dense/eytzinger/hash/scan/sparse", "frozen-collections-core/src/maps/iterators.rs: IterMut, ValuesMut"]}
{"id": "C13", "title": "The query methods agree with each other", "statement": "For every map and query, contains_key(q) is true iff get(q) is Some, get_key_value(q) is Some((k,v)) iff get(q) is Some(v) with k the stored equivalent key, get_mut(q) refers to the same value, and map[q] returns it or panics exactly when get(q) is None.", "quantifier": "every built map of each kind and every query", "why_tests_cant": "Each method is a separately written copy of the lookup; divergence may be confined to rare keys.", "anchors": ["frozen-collections-core/src/maps/decl_macros.rs: dense/eytzinger/hash/scan/sparse query funcs, index_trait_funcs", "frozen-collections-core/src/fz_maps/fz_scalar_map.rs", "frozen-collections-core/src/fz_maps/fz_string_map.rs"]}
{"id": "C14", "title": "get_disjoint_mut never hands out aliasing references", "statement": "get_disjoint_mut(keys) panics exactly when two of the requested keys are equal; otherwise the i-th result is what get_mut(keys[i]) gives, and no two results refer to the same value (when the query type's Eq agrees with its equivalence to keys).", "quantifier": "every map, every number and choice of keys", "why_tests_cant": "Aliasing depends on the relation between Eq on queries and equivalence with stored keys for all tuples.", "anchors": ["frozen-collections-core/src/maps/decl_macros.rs: get_disjoint_mut_funcs", "frozen-collections-core/src/utils/dedup.rs: has_duplicates"]}
{"id": "C15", "title": "Limitation: get_disjoint_mut can alias for query types whose Eq is finer than their equivalence to keys", "statement": "The claim 'the safe method get_disjoint_mut never returns two references to the same value, for any query type' is false: when a query type's Eq is finer than its equivalence to keys (which the safe traits permit) there is a map and a pair of different queries for which it returns two references to the same value.", "quantifier": "a counterexample to a claim about every query type implementing Eq and Equivalent/Comparable/AsRef<str> in safe code", "why_tests_cant": "Needs an adversarial query type; tests use ordinary ones.", "anchors": ["frozen-collections-core/src/maps/decl_macros.rs: get_disjoint_mut_funcs", "frozen-collections-core/src/utils/dedup.rs: has_duplicates"]}
{"id": "C16", "title": "Map equality is extensional", "statement": "m1 == m2 holds exactly when both maps associate equal values with exactly the same keys, whatever the concrete map types, hashers, construction order or duplicates; consequently equality is reflexive, symmetric and transitive when value equality is.", "quantifier": "every pair/triple of maps of any kinds built from any entries", "why_tests_cant": "The implementation checks one direction plus a length comparison; the converse needs a counting argument over arbitrary key sets.", "anchors": ["frozen-collections-core/src/maps/decl_macros.rs: partial_eq_trait_funcs"]}
{"id": "C17", "title": "Set equality is extensional", "statement": "s1 == s2 holds exactly when the two sets contain the same elements, whatever their concrete types.", "quantifier": "every pair of sets of any kinds", "why_tests_cant": "One-directional inclusion plus length comparison; needs a counting argument.", "anchors": ["frozen-collections-core/src/sets/decl_macros.rs: partial_eq_trait_funcs"]}
{"id": "C18", "title": "Union yields each element of either set exactly once", "statement": "s1.union(s2) yields every element that is in s1 or s2, exactly once, and nothing else.", "quantifier": "every pair of sets of any concrete types (any relative sizes)", "why_tests_cant": "The iterator switches strategy on sizes and excludes by membership in the other set; both orders must be covered for all contents.", "anchors": ["frozen-collections-core/src/sets/iterators.rs: Union", "frozen-collections-core/src/traits/set_ops.rs: union"]}
{"id": "C19", "title": "Intersection, difference and symmetric difference yield exactly the right elements once", "statement": "s1.intersection(s2), s1.difference(s2), s1.symmetric_difference(s2) yield exactly the elements in both, in s1 but not s2, and in exactly one of the two, each exactly once.", "quantifier": "every pair of sets of any concrete types", "why_tests_cant": "Strategy depends on relative sizes; all overlaps must be covered.", "anchors": ["frozen-collections-core/src/sets/iterators.rs: Intersection, Difference, SymmetricDifference", "frozen-collections-core/src/traits/set_ops.rs"]}
{"id": "C20", "title": "Subset, superset and disjointness tests are exact", "statement": "is_subset, is_superset and is_disjoint return true exactly when every element of s1 is in s2, every element of s2 is in s1, and no element is in both.", "quantifier": "every pair of sets of any concrete types", "why_tests_cant": "Early exits on lengths must be justified for all sets.", "anchors": ["frozen-collections-core/src/traits/set_ops.rs: is_disjoint, is_subset, is_superset"]}
{"id": "C21", "title": "Set operators build the mathematical result", "statement": "&a | &b, &a & &b, &a ^ &b and &a - &b produce a set whose members are exactly the union, intersection, symmetric difference and difference.", "quantifier": "every pair of sets of any concrete types", "why_tests_cant": "As C18/C19.", "anchors": ["frozen-collections-core/src/sets/decl_macros.rs: bitor_trait_funcs, bitand_trait_funcs, bitxor_trait_funcs, sub_trait_funcs"]}
{"id": "C22", "title": "size_hint of set iterators brackets what remains", "statement": "At every point of iterating an Intersection, Difference or SymmetricDifference, the lower bound of size_hint is at most, and the upper bound at least, the number of items still to come; for a Union this holds before iteration starts, and its upper bound is valid throughout. No bound of a fresh iterator can be better: each is the number of items for all disjoint sets or for all sets one of which contains the other.", "quantifier": "every pair of sets, after any number of next calls", "why_tests_cant": "A statement about every intermediate iterator state.", "anchors": ["frozen-collections-core/src/sets/iterators.rs: size_hint of Union, Intersection, Difference, SymmetricDifference"]}
{"id": "C23", "title": "Limitation: Union::size_hint's lower bound can be too large during iteration", "statement": "The claim 'at every point of iterating a Union the lower bound of size_hint is at most the number of items still to come' is false: there are two sets and a number of next calls after which the lower bound exceeds the number of items still to come.", "quantifier": "a counterexample to a claim about every pair of sets, after any number of next calls", "why_tests_cant": "Only mid-iteration states with overlapping sets violate it.", "anchors": ["frozen-collections-core/src/sets/iterators.rs: Union::size_hint"]}
{"id": "C24", "title": "Map iterators honour their length contracts", "statement": "For every map iterator, after any number of next calls len() and both size_hint bounds equal the number of items still to come, count() and fold consume exactly those, and once None is returned every further next returns None.", "quantifier": "every map, every iterator type, every number of next calls", "why_tests_cant": "A statement about every iterator state.", "anchors": ["frozen-collections-core/src/maps/iterators.rs"]}
{"id": "C25", "title": "No unchecked access ever leaves its array", "statement": "No query on any collection built by the safe constructors ever performs an out-of-range unchecked access, whatever the query (including keys outside the range, strings of any length, any hash code).", "quantifier": "every map kind, every construction input, every query", "why_tests_cant": "An out-of-range unchecked read is silent undefined behaviour; tests cannot observe its absence.", "anchors": ["frozen-collections-core/src/hash_tables/decl_macros.rs", "frozen-collections-core/src/maps/decl_macros.rs: dense/sparse", "frozen-collections-core/src/hash_tables/inline_hash_table_no_collisions.rs: find"]}
{"id": "C26", "title": "Construction of frozen collections never panics", "statement": "FzHashMap, FzOrderedMap, FzStringMap construction returns normally for every input (up to usize::MAX distinct keys), and FzScalarMap construction returns normally whenever the key span is below usize::MAX, in both overflow-checked and wrapping builds.", "quantifier": "every entry vector, every hasher, both arithmetic modes", "why_tests_cant": "Internal unwraps, index operations and subtractions must be shown unreachable for all inputs.", "anchors": ["frozen-collections-core/src/fz_maps/fz_hash_map.rs", "frozen-collections-core/src/fz_maps/fz_ordered_map.rs", "frozen-collections-core/src/fz_maps/fz_scalar_map.rs", "frozen-collections-core/src/fz_maps/fz_string_map.rs", "frozen-collections-core/src/analyzers/hash_code_analyzer.rs", "frozen-collections-core/src/analyzers/scalar_key_analyzer.rs", "frozen-collections-core/src/analyzers/slice_key_analyzer.rs", "frozen-collections-core/src/hash_tables/hash_table.rs", "frozen-collections-core/src/utils/eytzinger.rs"]}
{"id": "C27", "title": "Limitation: FzScalarMap construction can panic on extreme key pairs", "statement": "The claim 'FzScalarMap::new returns normally for every vector of entries of every scalar key type' is false: a vector holding the keys 0 and usize::MAX panics in an overflow-checked build, and in a wrapping build too.", "quantifier": "a counterexample to a claim about every entry vector of every scalar key type", "why_tests_cant": "Fails only for extreme key pairs (0 and usize::MAX).", "anchors": ["frozen-collections-core/src/analyzers/scalar_key_analyzer.rs", "frozen-collections-core/src/maps/sparse_scalar_lookup_map.rs: from_sorted_and_dedupped", "frozen-collections-core/src/fz_maps/fz_scalar_map.rs: new"]}
{"id": "C28", "title": "Hash table sizing is sound", "statement": "For any list of hash codes the sizing analysis terminates, never indexes outside its scratch bit set, and selects a number of slots that is a power of two between the smallest power of two able to hold the keys less the tolerated collisions and a fixed small multiple of the key count; the number of collisions it reports for that size is the true one.", "quantifier": "every list of hash codes", "why_tests_cant": "Search loop with early exits and a scratch bit vector initialised with garbage; all inputs matter.", "anchors": ["frozen-collections-core/src/analyzers/hash_code_analyzer.rs", "frozen-collections-core/src/utils/bitvec.rs"]}
{"id": "C29", "title": "String key analysis returns usable ranges", "statement": "Whatever range of the keys the string-key analysis selects lies inside every key, is a proper part of some key, leaves no more keys sharing a hash code than the tolerated fraction, and when the analysis selects lengths, no length is shared by more than the tolerated number of keys.", "quantifier": "every set of string keys, every hasher", "why_tests_cant": "Search over lengths and offsets; depends on all keys at once.", "anchors": ["frozen-collections-core/src/analyzers/slice_key_analyzer.rs"]}
{"id": "C30", "title": "Scalar key analysis classifies exactly", "statement": "The scalar key analysis reports a dense range exactly when the distinct indices form a contiguous range, a sparse range exactly when they do not but the span is at most 128 or less than ten times the count, and general otherwise.", "quantifier": "every list of distinct indices with representable span", "why_tests_cant": "Boundary conditions over all integers.", "anchors": ["frozen-collections-core/src/analyzers/scalar_key_analyzer.rs"]}
{"id": "C31", "title": "Eytzinger layout permutes the entries and search finds exactly the match", "statement": "Laying out any sorted vector keeps every element exactly once, never panics, and searching the result with any comparison consistent with the order returns the position of the matching element if and only if there is one.", "quantifier": "every length, every sorted vector, every consistent comparison", "why_tests_cant": "In-place cycle-following with a side map; index formula with shifts; correctness at every length needs induction.", "anchors": ["frozen-collections-core/src/utils/eytzinger.rs: eytzinger_layout, eytzinger_search_by"]}
{"id": "C32", "title": "Deduplication keeps exactly the last occurrence of each key", "statement": "Each of the three deduplication strategies (equality, ordering, hashing) returns a vector with pairwise different keys containing, for each supplied key, exactly the last supplied entry; the equality and hash strategies also keep the relative order of the survivors.", "quantifier": "every entry vector, every lawful Eq/Ord/Hash", "why_tests_cant": "Index bookkeeping over arbitrary duplicate patterns.", "anchors": ["frozen-collections-core/src/utils/dedup.rs: using_eq, using_cmp, using_hash, SortedAndDeduppedVec::new"]}
{"id": "C33", "title": "Scalar index is injective and order preserving", "statement": "For every built-in scalar type (u8..u64, usize, i8..i64, isize and their NonZero forms on 64-bit targets, and the 32-bit subset), index() maps different values to different indices, a<b iff a.index()<b.index(), and always fits usize.", "quantifier": "every value of every built-in scalar type", "why_tests_cant": "64-bit domains cannot be enumerated.", "anchors": ["frozen-collections-core/src/traits/scalar.rs"]}
{"id": "C34", "title": "Macro collections with scalar literals answer exactly", "statement": "A collection emitted by the scalar macros for literal keys answers every query with the last value listed for the key, or None, whichever inline form (scan, dense, sparse, hashed) is selected, and never performs an out-of-range unchecked access.", "quantifier": "every list of literal scalar entries with representable span, every query", "why_tests_cant": "The choice of form, index width and table is made at build time from the data.", "anchors": ["frozen-collections-core/src/emit/collection_emitter.rs: emit_scalar_collection", "frozen-collections-core/src/emit/generator.rs: gen_inline_dense_scalar_lookup, gen_inline_sparse_scalar_lookup, gen_inline_eytzinger_search, gen_inline_hash, gen_inline_scan", "frozen-collections-core/src/inline_maps/inline_dense_scalar_lookup_map.rs", "frozen-collections-core/src/inline_maps/inline_eytzinger_search_map.rs", "frozen-collections-core/src/inline_maps/inline_hash_map.rs", "frozen-collections-core/src/inline_maps/inline_hash_map_no_collisions.rs", "frozen-collections-core/src/inline_maps/inline_scan_map.rs", "frozen-collections-core/src/inline_maps/inline_sparse_scalar_lookup_map.rs", "frozen-collections-core/src/hash_tables/inline_hash_table.rs", "frozen-collections-core/src/hash_tables/inline_hash_table_no_collisions.rs"]}
{"id": "C35", "title": "Macro collections with string literals answer exactly", "statement": "A collection emitted by the string macros for literal keys answers every query string with the last value listed for it, or None, whichever hashing scheme (left range, right range, length, full) is selected, given that the run-time hash of a byte string equals the build-time one.", "quantifier": "every list of literal string entries, every query string of any length", "why_tests_cant": "Build-time and run-time hashing must agree on every string, including those shorter than the selected range.", "anchors": ["frozen-collections-core/src/emit/collection_emitter.rs: emit_string_collection", "frozen-collections-core/src/emit/generator.rs", "frozen-collections-core/src/hashers/inline_left_range_hasher.rs", "frozen-collections-core/src/hashers/inline_right_range_hasher.rs", "frozen-collections-core/src/hashers/length_hasher.rs"]}
{"id": "C36", "title": "Build-time emitted hash and ordered collections answer exactly", "statement": "Collections emitted by emit_hash_collection and emit_ordered_collection answer every query with the last value supplied for the key, or None.", "quantifier": "every list of entries, every hash function, every query", "why_tests_cant": "As C34.", "anchors": ["frozen-collections-core/src/emit/collection_emitter.rs: emit_hash_collection, emit_ordered_collection", "frozen-collections-core/src/emit/generator.rs"]}
{"id": "C37", "title": "Emitted index types are wide enough", "statement": "Whenever the emitter narrows the index type of an emitted table, every stored index fits the chosen type, so no emitted literal is out of range.", "quantifier": "every entry list of any length", "why_tests_cant": "Boundary at 255/256 and 65535/65536 for every table.", "anchors": ["frozen-collections-core/src/emit/generator.rs: collection_magnitude, gen_inline_sparse_scalar_lookup, gen_inline_hash_table_components"]}
{"id": "C38", "title": "Limitation: duplicate run-time keys in macros are not deduplicated", "statement": "The claim 'macros whose keys are expressions evaluated at run time keep the last value when two keys evaluate to equal values, as they do for literal keys' is false: there are run-time keys, two of them equal, for which evaluating the emitted expression panics.", "quantifier": "a counterexample to a claim about every list of run-time keys", "why_tests_cant": "Needs duplicates among run-time keys at small sizes.", "anchors": ["frozen-collections-core/src/emit/collection_emitter.rs: emit_*_collection_expr", "frozen-collections-core/src/emit/generator.rs: gen_inline_scan_vec, gen_inline_eytzinger_search_vec", "frozen-collections-core/src/inline_maps/inline_scan_map.rs: new", "frozen-collections-core/src/inline_maps/inline_eytzinger_search_map.rs: new"]}
{"id": "C39", "title": "Macro key classification does not depend on entry order", "statement": "Reordering the entries of a scalar or string macro never changes whether the macro is accepted nor which scalar type and collection kind is selected; mixing string and scalar literals, or two different scalar suffixes, is always rejected. The message reported is the one for the first key that does not go with the keys before it.", "quantifier": "every sequence of keys and every reordering", "why_tests_cant": "Left-to-right scan with accumulated state; order matters in principle.", "anchors": ["frozen-collections-core/src/macros/processor.rs: assess_keys, eval_literal_expr, process"]}
{"id": "C40", "title": "Numeric literal formatting preserves the value", "statement": "Digit grouping inserted into emitted numeric literals changes neither the digits nor their order nor the type suffix, and groups digits by three from the right.", "quantifier": "every literal string", "why_tests_cant": "Strings of every length.", "anchors": ["frozen-collections-core/src/emit/generator.rs: inject_underscores"]}
{"id": "C41", "title": "Emitter option checking is exact", "statement": "Emitting is rejected exactly when the options are contradictory: a mutable static, a static, mutable or aliased collection without a variable name; otherwise the chosen declaration form (static, lazy static, let, let mut, bare expression) is the one determined by the options. A rejection carries the message of the first of these checks that fails.", "quantifier": "every combination of options", "why_tests_cant": "Finite but must be covered exhaustively, with order of checks.", "anchors": ["frozen-collections-core/src/emit/collection_emitter.rs: preflight, postflight"]}
{"id": "C42", "title": "Serialization followed by deserialization gives an equal collection", "statement": "Serializing any frozen map or set and deserializing the result (with a deserializer able to lend string data for the string types) yields a collection equal to the original, with the same length and the same answers to all queries.", "quantifier": "every built collection of each Fz type, faithful data format", "why_tests_cant": "Every content, every hasher on either side.", "anchors": ["frozen-collections-core/src/fz_maps/fz_hash_map.rs: visit_map", "frozen-collections-core/src/fz_maps/fz_ordered_map.rs: visit_map", "frozen-collections-core/src/fz_maps/fz_scalar_map.rs: visit_map", "frozen-collections-core/src/fz_maps/fz_string_map.rs: visit_map", "frozen-collections-core/src/fz_sets/fz_hash_set.rs: visit_seq", "frozen-collections-core/src/fz_sets/fz_ordered_set.rs: visit_seq", "frozen-collections-core/src/fz_sets/fz_scalar_set.rs: visit_seq", "frozen-collections-core/src/fz_sets/fz_string_set.rs: visit_seq", "frozen-collections-core/src/maps/decl_macros.rs: serialize_trait_funcs", "frozen-collections-core/src/sets/decl_macros.rs: serialize_trait_funcs"]}
{"id": "C43", "title": "Limitation: string collections cannot be deserialized from formats that do not lend strings", "statement": "The claim 'serializing an FzStringMap or FzStringSet and deserializing it succeeds with every deserializer that reproduces the serialized data' is false: with a deserializer that only hands out transient strings, deserialization of every non-empty string collection fails.", "quantifier": "every non-empty FzStringMap/FzStringSet, against a faithful deserializer that does not lend", "why_tests_cant": "Needs a deserializer that cannot lend (escapes, streaming readers).", "anchors": ["frozen-collections-core/src/fz_maps/fz_string_map.rs: visit_map", "frozen-collections-core/src/fz_sets/fz_string_set.rs: visit_seq"]}
{"id": "C44", "title": "Range hashers are total and local", "statement": "Range hashers return a value for every string without panicking; the value depends only on the bytes in the selected range (or is zero when the string is too short); the compile-time and run-time versions of the same hasher agree on every string.", "quantifier": "every string, every range, every underlying hasher", "why_tests_cant": "All string lengths around the range boundaries.", "anchors": ["frozen-collections-core/src/hashers/left_range_hasher.rs", "frozen-collections-core/src/hashers/right_range_hasher.rs", "frozen-collections-core/src/hashers/inline_left_range_hasher.rs", "frozen-collections-core/src/hashers/inline_right_range_hasher.rs"]}
{"id": "C45", "title": "Construction order of distinct keys is irrelevant", "statement": "Two collections built from the same entries in a different order (keys pairwise distinct) are equal and answer every query alike, even when built with different hashers or as different collection types.", "quantifier": "every pair of permuted entry vectors, all Fz types and hashers", "why_tests_cant": "All permutations and all layouts.", "anchors": ["frozen-collections-core/src/fz_maps/fz_hash_map.rs", "frozen-collections-core/src/fz_maps/fz_ordered_map.rs", "frozen-collections-core/src/fz_maps/fz_scalar_map.rs", "frozen-collections-core/src/fz_maps/fz_string_map.rs", "frozen-collections-core/src/maps/decl_macros.rs: partial_eq_trait_funcs"]}
{"id": "C46", "title": "Default collections are empty", "statement": "A default-constructed collection of any type answers None/false to every query without out-of-range access, iterates over nothing, has len 0, and equals the collection built from an empty vector.", "quantifier": "every query on every default collection type", "why_tests_cant": "Sentinel values (min=1,max=0, one-slot table) must be right for every query including index 0 and usize::MAX.", "anchors": ["frozen-collections-core/src/maps/dense_scalar_lookup_map.rs: default", "frozen-collections-core/src/maps/sparse_scalar_lookup_map.rs: default", "frozen-collections-core/src/hash_tables/hash_table.rs: default", "frozen-collections-core/src/maps/hash_map.rs: default"]}
{"id": "C47", "title": "Lookup cost bounds", "statement": "An ordered-map lookup performs at most floor(log2 n)+1 comparisons; a hashed lookup compares the query only against keys falling in the same slot, and a no-collision inline table compares against at most one key; a table reports collisions exactly if two of its entries share a slot.", "quantifier": "every built map and every query", "why_tests_cant": "Worst case over all queries and contents.", "anchors": ["frozen-collections-core/src/utils/eytzinger.rs: eytzinger_search_by", "frozen-collections-core/src/hash_tables/decl_macros.rs: find", "frozen-collections-core/src/hash_tables/inline_hash_table_no_collisions.rs: find"]}
{"id": "C48", "title": "Limitation: scalar collections need Ord to agree with index", "statement": "The claim 'FzScalarMap lookups are exact for every type implementing the safe Scalar trait, with any lawful Ord' is false: there is a key type with a lawful Ord that differs from its index order, and entries for which a supplied key is not found.", "quantifier": "a counterexample to a claim about every Scalar type, including ones whose Ord is not the index order", "why_tests_cant": "Requires a custom Ord; tests use derived ones.", "anchors": ["frozen-collections-core/src/maps/dense_scalar_lookup_map.rs: from_sorted_and_dedupped", "frozen-collections-core/src/maps/sparse_scalar_lookup_map.rs: from_sorted_and_dedupped", "frozen-collections-core/src/macros/derive_scalar_macro.rs", "frozen-collections-core/src/traits/scalar.rs"]}
{"id": "C49", "title": "derive(Scalar) numbers variants by declaration", "statement": "derive(Scalar) is accepted exactly for non-empty enums all of whose variants are unit variants without explicit discriminants, and the generated index maps the i-th declared variant to i, so it is injective and dense.", "quantifier": "every enum declaration", "why_tests_cant": "All shapes of declarations.", "anchors": ["frozen-collections-core/src/macros/derive_scalar_macro.rs"]}
{"id": "C50", "title": "Set algebra laws hold across set types", "statement": "Across any set types the operations satisfy the usual laws: union and intersection commute as sets, |A∪B| = |A|+|B|-|A∩B| in numbers of items yielded, A-B is disjoint from B, A is a subset of A∪B, A^B = (A∪B)-(A∩B), and is_subset both ways is equality.", "quantifier": "every pair of sets", "why_tests_cant": "Algebraic laws over all sets.", "anchors": ["frozen-collections-core/src/sets/iterators.rs", "frozen-collections-core/src/traits/set_ops.rs", "frozen-collections-core/src/sets/decl_macros.rs"]}
{"id": "C51", "title": "Queries stay inside their arrays even when the traits misbehave", "statement": "Whatever Eq, Ord, Hash, BuildHasher, Equivalent, Comparable and Scalar answer (as functions of their arguments), a map that any public constructor returned, after any writes to its values, answers every query without panicking and without an out-of-range unchecked access; whatever it returns is an element of its entry array.", "quantifier": "every map type over a generic key, every entry vector, every implementation of the traits, lawful or not, every query", "why_tests_cant": "Adversarial trait implementations are unboundedly many, and the bad outcome is silent undefined behaviour.", "anchors": ["frozen-collections-core/src/maps/decl_macros.rs", "frozen-collections-core/src/hash_tables/decl_macros.rs", "frozen-collections-core/src/hash_tables/hash_table.rs: HashTable::new", "frozen-collections-core/src/maps/dense_scalar_lookup_map.rs", "frozen-collections-core/src/maps/sparse_scalar_lookup_map.rs", "frozen-collections-core/src/fz_maps/fz_scalar_map.rs"]}
{"id": "C52", "title": "Limitation: a Scalar whose index changes between calls breaks memory safety", "statement": "The claim 'safe implementations of Scalar can never make a dense map read outside its array' is false: if index(), a method of a safe trait, answers differently when called again, DenseScalarLookupMap can be built with bounds its array does not cover, and a query then reads out of range.", "quantifier": "a counterexample to a claim about every safe implementation of Scalar", "why_tests_cant": "Needs a stateful trait implementation.", "anchors": ["frozen-collections-core/src/maps/dense_scalar_lookup_map.rs: new, from_sorted_and_dedupped", "frozen-collections-core/src/traits/scalar.rs: Scalar"]}
{"id": "C53", "title": "Integer-literal macros expand to exact collections and are rejected exactly when they must be", "statement": "A map or set macro call whose keys are integer literals, all without suffix or with one common suffix among them, expands to a declaration of the requested form that compiles and, when run, gives a collection holding exactly the pairs written down, the last one winning for repeated keys; a macro call is rejected exactly when it has no entries and no types, its keys do not fit together, or an integer does not fit its type, each with its own message, keys that do not fit together being reported before integers that do not fit. The numeric span of the keys must be below the largest index.", "quantifier": "every macro call with integer-literal keys, short or long form, static or let, every order and number of entries, every query", "why_tests_cant": "Covers literal classification, parsing, duplicate removal, choice of layout and the running collection for all inputs at once.", "anchors": ["frozen-collections-core/src/macros/macro_api.rs: fz_map_macro, fz_set_macro", "frozen-collections-core/src/macros/processor.rs: process, handle_literal_scalar_keys", "frozen-collections-core/src/emit/collection_emitter.rs: emit_scalar_collection"]}
{"id": "C54", "title": "String-literal macros expand to exact collections", "statement": "A map or set macro call (other than a scalar macro) whose keys are all string literals expands to a declaration of the requested form that compiles and, when run with a hasher that agrees with the one used at build time, gives a collection holding exactly the pairs written down, the last one winning for repeated keys.", "quantifier": "every macro call with string-literal keys, every order and number of entries, every query string", "why_tests_cant": "Covers classification, substring-range selection, table layout and lookups for all inputs at once.", "anchors": ["frozen-collections-core/src/macros/macro_api.rs: fz_map_macro, fz_set_macro", "frozen-collections-core/src/macros/processor.rs: process, handle_literal_string_keys", "frozen-collections-core/src/emit/collection_emitter.rs: emit_string_collection"]}
{"id": "C55", "title": "Macros over expressions, and empty macros", "statement": "A macro call whose keys are not all literals expands to a declaration of the requested form (lazily initialised if static); run, it gives a collection holding exactly the pairs denoted, except that the ordered kind always, and the other kinds with fewer than 4 (scalars: 8) entries, panic exactly when two keys turn out equal. A call without entries but with types expands to an empty collection.", "quantifier": "every macro call with keys of any form, every evaluation of the key expressions, every query", "why_tests_cant": "The collection is decided at run time by values no test enumerates.", "anchors": ["frozen-collections-core/src/macros/macro_api.rs: fz_map_macro, fz_set_macro", "frozen-collections-core/src/macros/processor.rs: process, handle_non_literal_scalar_keys, handle_non_literal_string_keys, handle_hashed_keys, handle_ordered_keys", "frozen-collections-core/src/emit/collection_emitter.rs"]}
{"id": "C56", "title": "Deserialization of arbitrary input builds exactly the collection of its items or reports its first error", "statement": "For every input of a deserializer, including malformed input, repeated keys and wrong size hints that are not too large, deserializing any frozen map or set returns an error exactly when the input contains one (for the string types also when a key cannot be borrowed) and otherwise the collection of all the items, the last item of a repeated key winning. The stronger claim 'deserialization never panics' is false: a size hint asking for more than isize::MAX bytes makes every one of them panic.", "quantifier": "every access sequence (items, errors, size hint), every element size, every Fz type", "why_tests_cant": "Inputs are untrusted and unbounded; the panic needs a hostile size hint.", "anchors": ["frozen-collections-core/src/fz_maps/fz_hash_map.rs: visit_map", "frozen-collections-core/src/fz_maps/fz_ordered_map.rs: visit_map", "frozen-collections-core/src/fz_maps/fz_scalar_map.rs: visit_map", "frozen-collections-core/src/fz_maps/fz_string_map.rs: visit_map", "frozen-collections-core/src/fz_sets/fz_hash_set.rs: visit_seq", "frozen-collections-core/src/fz_sets/fz_ordered_set.rs: visit_seq", "frozen-collections-core/src/fz_sets/fz_scalar_set.rs: visit_seq", "frozen-collections-core/src/fz_sets/fz_string_set.rs: visit_seq"]}
{"id": "C57", "title": "Macro calls are parsed by the documented grammar, exactly", "statement": "Every token stream of the documented form - an optional visibility and `static`, or `let` with an optional `mut`, then name, type name, type arguments and braced entries; or the braced entries alone; entries `key: value` in maps and `value` in sets, separated by commas with an optional last one - is accepted, and visibility, mutability, names, types and entries are the ones written, in the order written. Nothing else is accepted, no token is skipped, and no call has two readings.", "quantifier": "every token stream, every expression and type syntax accepted by the underlying parsers, every number of entries", "why_tests_cant": "Grammars have unboundedly many sentences and non-sentences; tests try a handful of each.", "anchors": ["frozen-collections-core/src/macros/parsing/map.rs", "frozen-collections-core/src/macros/parsing/set.rs", "frozen-collections-core/src/macros/parsing/long_form_map.rs", "frozen-collections-core/src/macros/parsing/long_form_set.rs", "frozen-collections-core/src/macros/parsing/payload.rs", "frozen-collections-core/src/macros/parsing/entry.rs"]}
{"id": "C58", "title": "Macros never panic on any token stream and expand exactly the valid calls", "statement": "For every token stream, a collection macro returns an expansion or a compile error and does not panic, provided its literals are of moderate size (fewer than 2^64 entries, integer literals less than 2^64 - 1 apart). A call of the documented form whose keys fit together expands; anything else is an error. The expansion of a call with integer or string literals, or with expressions in a hashed macro, is a collection holding exactly the pairs written in the tokens.", "quantifier": "every token stream for every kind of macro", "why_tests_cant": "Token streams are arbitrary input; a panic inside a procedural macro shows up only for the input that triggers it.", "anchors": ["frozen-collections-core/src/macros/macro_api.rs: fz_map_macro, fz_set_macro", "frozen-collections-core/src/macros/parsing/entry.rs", "frozen-collections-core/src/macros/parsing/long_form_map.rs", "frozen-collections-core/src/macros/parsing/long_form_set.rs", "frozen-collections-core/src/macros/parsing/map.rs", "frozen-collections-core/src/macros/parsing/payload.rs", "frozen-collections-core/src/macros/parsing/set.rs", "frozen-collections-core/src/macros/parsing/short_form_map.rs", "frozen-collections-core/src/macros/parsing/short_form_set.rs", "frozen-collections-core/src/macros/processor.rs: process", "frozen-collections-core/src/emit/collection_emitter.rs"]}
{"id": "C59", "title": "Integer macros expanded on a 64-bit machine are exact on a 32-bit target, except for tables of isize keys", "statement": "The expansion of a macro call with integer-literal keys is made on a 64-bit build machine, with 64-bit indices. Compiled for a 32-bit target, for any key type that implements Scalar there, and with every printed literal in range there, it still gives a collection that answers exactly. Dense and sparse tables of isize keys are never in range: their printed bounds need more than 32 bits, and cut off to 32 bits they lose keys.", "quantifier": "every macro call with integer-literal keys of every type with Scalar on 32-bit targets, every query", "why_tests_cant": "Tests run on the machine that built them, so the widths never differ.", "anchors": ["frozen-collections-core/src/traits/scalar.rs", "frozen-collections-core/src/emit/generator.rs: gen_inline_dense_scalar_lookup, gen_inline_sparse_scalar_lookup, gen_inline_hash", "frozen-collections-core/src/macros/processor.rs: handle_literal_scalar_keys", "frozen-collections-core/src/hashers/scalar_hasher.rs"]}
{"id": "C60", "title": "Emitted code type checks exactly when it should", "statement": "The four emit functions print declarations that type check (types, generic arguments, array lengths, constants in statics) whatever collection they select, if the key and value types they are given are those of the expressions. The expansion of a macro call that names its types type checks exactly if: unsuffixed integer keys are declared i32; a call with four or more string keys, not all literals, is declared Box<str> and its keys have one type that is AsRef<str>; in other calls the keys printed have the declared type; the values printed have the declared type, and are constants if the call is a static with literal keys. Without type names, the expansion type checks exactly if some types meet this.", "quantifier": "every emitter, every entry list, every macro kind and call (map or set, long or short form, static or let)", "why_tests_cant": "Which of a dozen types with up to five generic arguments is printed depends on the number and values of the keys, the hash seed and the options; each test compiles one of the combinations.", "anchors": ["frozen-collections-core/src/emit/generator.rs", "frozen-collections-core/src/emit/collection_emitter.rs", "frozen-collections-core/src/macros/processor.rs: process", "frozen-collections-core/src/fz_maps/fz_string_map.rs: new", "frozen-collections-core/src/inline_maps/inline_dense_scalar_lookup_map.rs", "frozen-collections-core/src/inline_maps/inline_eytzinger_search_map.rs", "frozen-collections-core/src/inline_maps/inline_hash_map.rs", "frozen-collections-core/src/inline_maps/inline_hash_map_no_collisions.rs", "frozen-collections-core/src/inline_maps/inline_scan_map.rs", "frozen-collections-core/src/inline_maps/inline_sparse_scalar_lookup_map.rs"]}
{"id": "C61", "title": "Well-typed macro calls that do not compile", "statement": "The expansion of a macro call whose keys and values have the declared types need not type check: unsuffixed integer keys are printed with the suffix i32 whatever type is declared; with string keys that are not all literals, no declared key type works both below and from four entries on; a static with literal keys rejects values that are not constants, although a static with some other key accepts them.", "quantifier": "exists a call", "why_tests_cant": "A test that does not compile is not written; the tests of the repository suffix the first key and use only literals in typed string macros.", "anchors": ["frozen-collections-core/src/macros/processor.rs: process, handle_literal_scalar_keys, handle_literal_string_keys", "frozen-collections-core/src/emit/generator.rs: gen_fz_string", "frozen-collections-core/src/fz_maps/fz_string_map.rs: new"]}
{"id": "C62", "title": "No client can tell a frozen map from a reference map", "statement": "Whatever calls a client makes, in whatever order and however it picks them from the answers seen so far - get, get_key_value, contains_key, indexing, len, is_empty, iter, keys, values, writes through get_mut, get_disjoint_mut, iter_mut and values_mut, panics caught in between - every answer is the one a plain list of the last entries supplied for each key would give, with one order of iteration throughout. Two maps made from the same entries, of whatever kinds, give the same answers to every client that does not iterate.", "quantifier": "every way of making a map, every client, every number of calls", "why_tests_cant": "Histories are unboundedly long and the calls depend on earlier answers; tests call each method once or twice on a fresh map.", "anchors": ["frozen-collections-core/src/maps/decl_macros.rs", "frozen-collections-core/src/maps/iterators.rs", "frozen-collections-core/src/fz_maps/fz_hash_map.rs", "frozen-collections-core/src/fz_maps/fz_ordered_map.rs", "frozen-collections-core/src/fz_maps/fz_scalar_map.rs", "frozen-collections-core/src/fz_maps/fz_string_map.rs", "frozen-collections-core/src/inline_maps/inline_dense_scalar_lookup_map.rs", "frozen-collections-core/src/inline_maps/inline_eytzinger_search_map.rs", "frozen-collections-core/src/inline_maps/inline_hash_map.rs", "frozen-collections-core/src/inline_maps/inline_hash_map_no_collisions.rs", "frozen-collections-core/src/inline_maps/inline_scan_map.rs", "frozen-collections-core/src/inline_maps/inline_sparse_scalar_lookup_map.rs"]}
{"id": "C63", "title": "Scalar and string collections are exact at every pointer width", "statement": "Whatever the width of usize, FzScalarMap::new and SparseScalarLookupMap::new panic exactly when one key has index 0 and another index usize::MAX, in both build modes, and otherwise give maps that answer exactly for the entries supplied; DenseScalarLookupMap::new panics (debug) or refuses (release) such keys and otherwise accepts exactly the keys without gaps; FzStringMap::new gives the same map at every width. So the stronger claim 'freezing scalar keys never panics' is false on 32-bit targets already for the keys i32::MIN and i32::MAX, which work on 64 bits.", "quantifier": "every width up to 64 bits, every key list, every lawful Scalar, both build modes", "why_tests_cant": "Tests run at one width, and the failing pair of keys is the most extreme one.", "anchors": ["frozen-collections-core/src/analyzers/scalar_key_analyzer.rs", "frozen-collections-core/src/analyzers/slice_key_analyzer.rs", "frozen-collections-core/src/maps/dense_scalar_lookup_map.rs", "frozen-collections-core/src/maps/sparse_scalar_lookup_map.rs", "frozen-collections-core/src/fz_maps/fz_scalar_map.rs: new", "frozen-collections-core/src/fz_maps/fz_string_map.rs: with_hasher"]}
{"id": "C64", "title": "String and hashed collections emitted on one machine and run on another that hashes differently", "statement": "A string or hashed collection is laid out with the hash function of the machine that expands it and searched with that of the machine it runs on. Whatever the two functions, the expansion compiles, lookups never panic and never give a wrong entry, len and iteration are exact, and a key is missed exactly if its two hash codes select different slots. So the collection is exact if and only if all supplied keys select the same slots; always so when no hasher is used or strings are hashed by length. The stronger claim 'strings written in a macro are found on every target' is false.", "quantifier": "every pair of hash functions, every entry list, every query; every macro call over string literals", "why_tests_cant": "Tests run on the machine that built them, with one hash function.", "anchors": ["frozen-collections-core/src/emit/collection_emitter.rs: emit_hash_collection, emit_string_collection", "frozen-collections-core/src/emit/generator.rs: gen_inline_hash, gen_inline_hash_table_components", "frozen-collections-core/src/hashers/bridge_hasher.rs", "frozen-collections-core/src/hashers/inline_left_range_hasher.rs", "frozen-collections-core/src/hashers/inline_right_range_hasher.rs", "frozen-collections-core/src/hashers/left_range_hasher.rs", "frozen-collections-core/src/hashers/length_hasher.rs", "frozen-collections-core/src/hashers/right_range_hasher.rs", "frozen-collections-core/src/hashers/scalar_hasher.rs"]}
{"id": "C65", "title": "The analyzers do linear work and the tables are linear in size", "statement": "The slice analyzer compares each key element at most twice and hashes at most 32 stretches, of at most 16 elements each, per key element; the hash code analyzer tries at most five table sizes and looks at each code at most once per size. The side table of every hash, scalar and string map, and of every emitted collection, has at most 20 slots per entry, or 128 in all.", "quantifier": "every key list, every hash function, every reflexive element equality; every entry list, map kind and emitter", "why_tests_cant": "Work and table sizes are not observable through results; benchmarks run on a few sizes, not on adversarial keys.", "anchors": ["frozen-collections-core/src/analyzers/slice_key_analyzer.rs", "frozen-collections-core/src/analyzers/hash_code_analyzer.rs", "frozen-collections-core/src/hash_tables/hash_table.rs: new", "frozen-collections-core/src/maps/sparse_scalar_lookup_map.rs", "frozen-collections-core/src/analyzers/scalar_key_analyzer.rs", "frozen-collections-core/src/emit/generator.rs"]}
{"id": "C66", "title": "The tokens of emitted code read back as exactly the code meant", "statement": "Whatever collection is selected and whatever options are set, the tokens printed by the emitter - paths, turbofish generics, array and vec! literals, numbers with suffixes and digit separators, closures, visibility, type aliases, static and let items - parse, with nothing left over and in one way only, as the declaration, type and constructor expression meant; every number reads as its value. Printing panics exactly if a symbol or alias name is not an identifier. The stronger claim 'what is printed always parses' is false for names that are keywords.", "quantifier": "every collection, every declaration form, every name and type", "why_tests_cant": "Tests compile a few expansions; a misplaced comma, separator or suffix in a template shows only for the representation, size or option that uses it.", "anchors": ["frozen-collections-core/src/emit/generator.rs", "frozen-collections-core/src/emit/collection_emitter.rs: postflight", "frozen-collections-core/src/emit/collection_entry.rs: to_tokens", "frozen-collections-core/src/hash_tables/hash_table_slot.rs: to_tokens"]}
{"id": "C67", "title": "From keys to answers through the printed text", "statement": "If the tokens printed for a collection are parsed and evaluated with the constructor functions of the crate, the name they declare is a map (or a set around one) that answers every query like one holding exactly the entries supplied, the last one winning; for the four emit functions and for macro calls with integer or string literals. In general the text is rejected (array length, literal range, empty table) or evaluates exactly as the selected constructor says.", "quantifier": "every entry list, option, seed, hash function and query, every literal macro call", "why_tests_cant": "It takes the whole pipeline - analysis, layout, printing, parsing, construction, lookup - for every input; a test covers one input each.", "anchors": ["frozen-collections-core/src/emit/generator.rs", "frozen-collections-core/src/emit/collection_emitter.rs", "frozen-collections-core/src/inline_maps/inline_dense_scalar_lookup_map.rs", "frozen-collections-core/src/inline_maps/inline_eytzinger_search_map.rs", "frozen-collections-core/src/inline_maps/inline_hash_map.rs", "frozen-collections-core/src/inline_maps/inline_hash_map_no_collisions.rs", "frozen-collections-core/src/inline_maps/inline_scan_map.rs", "frozen-collections-core/src/inline_maps/inline_sparse_scalar_lookup_map.rs", "frozen-collections-core/src/inline_sets/inline_dense_scalar_lookup_set.rs", "frozen-collections-core/src/inline_sets/inline_eytzinger_search_set.rs", "frozen-collections-core/src/inline_sets/inline_hash_set.rs", "frozen-collections-core/src/inline_sets/inline_hash_set_no_collisions.rs", "frozen-collections-core/src/inline_sets/inline_scan_set.rs", "frozen-collections-core/src/inline_sets/inline_sparse_scalar_lookup_set.rs", "frozen-collections-core/src/hash_tables/inline_hash_table.rs: new_raw", "frozen-collections-core/src/hash_tables/inline_hash_table_no_collisions.rs: new_raw"]}
{"id": "C68", "title": "get_mut and get_disjoint_mut under Rust's aliasing models", "statement": "get_mut, followed by any use of the reference it returns, is defined behaviour under Stacked Borrows and under Tree Borrows, for every kind of map. get_disjoint_mut, followed by any use of the references it returns in any order, is defined under Tree Borrows exactly if no two of them point to the same value, which is always so for lawful query types. The stronger claim 'get_disjoint_mut is defined behaviour' is false under Stacked Borrows, as soon as two keys are found, for every kind of map: the second get_mut reborrows all entries and so ends the first pointer before as_mut uses it. There, it is defined exactly if no key that is found is followed by one whose lookup reborrows its value mutably: with inline storage and in scanned and hashed maps, if only the last key is found; in boxed ordered, dense and sparse maps, if at most one key is found.", "quantifier": "every map, boxed or inline, every list of keys, every sequence of reads and writes through the results, every memory location", "why_tests_cant": "Undefined behaviour shows in no result; the one tool that would report it is switched off for this function (cfg(not(miri)) in tests/common/map_testing.rs).", "anchors": ["frozen-collections-core/src/maps/decl_macros.rs: get_disjoint_mut_funcs, get_mut", "frozen-collections-core/src/hash_tables/decl_macros.rs: find_mut", "frozen-collections-core/src/hash_tables/inline_hash_table_no_collisions.rs: find_mut", "frozen-collections-core/src/utils/eytzinger.rs"]}
{"id": "C69", "title": "Debug output", "statement": "Printing a map with {:?} gives every key once with the value given last for it, in iteration order; a set gives its elements. The shared iterators, Union, Difference and Intersection print, in any state, the list of what they have yet to yield. Three further claims are false: SymmetricDifference prints 'Chain { a: Some([..]), b: Some([..]) }' instead of such a list; ValuesMut and IntoValues print the keys as well; equal maps may print differently.", "quantifier": "every map and set, every reachable and unreachable iterator state, every way of printing keys and values", "why_tests_cant": "The tests only check that the text contains some names, which holds for all of these.", "anchors": ["frozen-collections-core/src/maps/decl_macros.rs: debug_trait_funcs", "frozen-collections-core/src/sets/decl_macros.rs: debug_trait_funcs", "frozen-collections-core/src/maps/iterators.rs: Debug", "frozen-collections-core/src/sets/iterators.rs: Debug"]}
{"id": "C70", "title": "The macros as functions from tokens to tokens", "statement": "For every token stream (with literals a 64-bit machine can deal with) a collection macro returns tokens or an error and never panics. What the grammar does not allow, and calls whose keys do not fit together, are errors. Any other call returns tokens that parse, in one way, as exactly the declaration asked for - an expression, or a type alias with a static or let of the names, visibility and mutability written, lazily initialised exactly if some key is not a literal - and that type check exactly under the conditions of C60 on what the user wrote. Evaluated, the name declared is a collection that answers every query like one holding the entries written: for integer and string literals, for no entries, and for expressions as keys (hashed, ordered, scalar, string), where equal keys of a scanned or ordered collection panic when it is made.", "quantifier": "every token stream, every parser for expressions and types, every key and value expression, every seed and hash function, every query", "why_tests_cant": "It is the composition of parsing, analysis, emission, printing, reading and construction; each expansion a test compiles is one input.", "anchors": ["frozen-collections-core/src/macros/macro_api.rs", "frozen-collections-core/src/macros/processor.rs", "frozen-collections-core/src/macros/parsing/entry.rs", "frozen-collections-core/src/macros/parsing/long_form_map.rs", "frozen-collections-core/src/macros/parsing/long_form_set.rs", "frozen-collections-core/src/macros/parsing/map.rs", "frozen-collections-core/src/macros/parsing/payload.rs", "frozen-collections-core/src/macros/parsing/set.rs", "frozen-collections-core/src/macros/parsing/short_form_map.rs", "frozen-collections-core/src/macros/parsing/short_form_set.rs", "frozen-collections-core/src/emit/collection_emitter.rs", "frozen-collections-core/src/emit/generator.rs", "frozen-collections-macros/src/lib.rs"]}
{"id": "C71", "title": "Set iterators used to the end and beyond", "statement": "Union, Intersection, Difference and SymmetricDifference keep the promise of FusedIterator: once next has answered None it always will, in whatever state the iterator was and even if the two sets answer contains wrongly. count answers the number of items still to come, including SymmetricDifference's own count, which adds up the two parts of its Chain.", "quantifier": "every iterator state, every pair of sets lawful or not", "why_tests_cant": "Tests drain fresh iterators once; the states in the middle of the second half, and calls after the end, are not reached.", "anchors": ["frozen-collections-core/src/sets/iterators.rs: FusedIterator, count", "frozen-collections-core/src/sets/iterators.rs: next"]}
{"id": "C72", "title": "No client can tell frozen sets from finite sets", "statement": "A client that holds frozen sets of any kinds and sets of hashbrown, asks which elements they contain, how many there are and how many satisfy a condition, compares them, counts their unions, intersections and differences, and keeps the results of the operators as further sets to go on with - choosing each call from the answers seen so far - gets exactly the answers finite sets give, never panics, and ends up with sets of exactly the right elements, whatever order hashbrown lists elements in.", "quantifier": "every client, every number of calls, every collection of starting sets, every order of hashbrown's iteration", "why_tests_cant": "Errors of one operation that another one hides or amplifies, and results used as operands of further operations, need sequences; tests apply one operator to fresh sets.", "anchors": ["frozen-collections-core/src/sets/iterators.rs", "frozen-collections-core/src/sets/decl_macros.rs", "frozen-collections-core/src/traits/set_ops.rs", "frozen-collections-core/src/fz_sets/fz_hash_set.rs", "frozen-collections-core/src/fz_sets/fz_ordered_set.rs", "frozen-collections-core/src/fz_sets/fz_scalar_set.rs", "frozen-collections-core/src/fz_sets/fz_string_set.rs", "frozen-collections-core/src/traits/set.rs"]}
{"id": "C73", "title": "Whatever a client does to a map over time is defined behaviour", "statement": "A client may look up keys, start iterators and read through whatever they gave in any order while it shares the map; take a value by get_mut and read and write it; walk with iter_mut, reading keys and reading and writing values already passed while it goes on; or take several values by get_disjoint_mut - and then let go and do any of these again, as often as it likes. All of this is defined behaviour under Tree Borrows, and a history is defined under Stacked Borrows exactly if each call of get_disjoint_mut in it is (C68), in particular if none is passed more than one key. In particular the raw pointers in find, find_mut and the slice iterators are only ever used while they are valid.", "quantifier": "every kind of map, boxed or inline, every history of calls and uses, every memory location", "why_tests_cant": "Undefined behaviour shows in no result, and it may need a sequence of calls in which a pointer kept from one is used after another; Miri judges single runs.", "anchors": ["frozen-collections-core/src/maps/decl_macros.rs: get, get_key_value, get_mut, iter, iter_mut, get_disjoint_mut_funcs", "frozen-collections-core/src/maps/iterators.rs: Iter, IterMut", "frozen-collections-core/src/hash_tables/decl_macros.rs: find, find_mut", "frozen-collections-core/src/hash_tables/inline_hash_table_no_collisions.rs: find, find_mut"]}
{"id": "C74", "title": "Traits that keep state and panic", "statement": "Eq, Ord, Hash, Scalar and the hash builder of a key may answer differently at every call and may panic at any. Still, constructors never cause undefined behaviour; and apart from DenseScalarLookupMap and FzScalarMap, no sequence of get, get_mut with a write, get_key_value and contains_key on what they make does, with panics caught and the map used again: each request gets a reply, keys and values in it come from the input or from what the client wrote, the same keys stay in the same places, and a request panics only if one of the trait calls does. Whether a map has this property depends on its fields alone, in exactly one way per kind of map. For the two exceptions it is false, because they check the answers of index and then ask again; it holds for them too if the second answers are those of the first time or within the range seen.", "quantifier": "every stream of answers and panics, every input, every sequence of requests, every build mode", "why_tests_cant": "The traits are safe to implement in any way, and a test would have to guess which call has to answer what to send an unchecked access out of range.", "anchors": ["frozen-collections-core/src/maps/decl_macros.rs", "frozen-collections-core/src/maps/dense_scalar_lookup_map.rs", "frozen-collections-core/src/maps/eytzinger_search_map.rs", "frozen-collections-core/src/maps/hash_map.rs", "frozen-collections-core/src/maps/iterators.rs", "frozen-collections-core/src/maps/scan_map.rs", "frozen-collections-core/src/maps/sparse_scalar_lookup_map.rs", "frozen-collections-core/src/fz_maps/fz_hash_map.rs", "frozen-collections-core/src/fz_maps/fz_ordered_map.rs", "frozen-collections-core/src/fz_maps/fz_scalar_map.rs", "frozen-collections-core/src/fz_maps/fz_string_map.rs", "frozen-collections-core/src/inline_maps/inline_dense_scalar_lookup_map.rs", "frozen-collections-core/src/inline_maps/inline_eytzinger_search_map.rs", "frozen-collections-core/src/inline_maps/inline_hash_map.rs", "frozen-collections-core/src/inline_maps/inline_hash_map_no_collisions.rs", "frozen-collections-core/src/inline_maps/inline_scan_map.rs", "frozen-collections-core/src/inline_maps/inline_sparse_scalar_lookup_map.rs", "frozen-collections-core/src/hash_tables/decl_macros.rs", "frozen-collections-core/src/hash_tables/hash_table.rs", "frozen-collections-core/src/hash_tables/hash_table_slot.rs", "frozen-collections-core/src/hash_tables/inline_hash_table.rs", "frozen-collections-core/src/hash_tables/inline_hash_table_no_collisions.rs", "frozen-collections-core/src/utils/dedup.rs", "frozen-collections-core/src/analyzers/scalar_key_analyzer.rs"]}
{"id": "C75", "title": "Collections assembled by hand", "statement": "The new_raw constructors of the inline maps and tables are safe and check nothing. What must be true of their arguments for no lookup to read out of range is exactly this: a dense map has an empty range or at least as many entries as the range is wide; a sparse map has an empty range or a lookup table covering it whose entries in that range are at most the number of entries; a hash table has, in each slot that the mask lets a hash code reach (all of them if their number is a power of two), a range of entries, respectively 0 or the number of an entry plus one; scanned and ordered maps need nothing. Arguments that are not so are accepted, and a lookup with lawful keys reads out of range.", "quantifier": "every argument of new_raw, every key, lawful or not, every kind of lookup", "why_tests_cant": "Only the macros call these functions; no test passes them inconsistent arrays.", "anchors": ["frozen-collections-core/src/inline_maps/inline_dense_scalar_lookup_map.rs: new_raw", "frozen-collections-core/src/inline_maps/inline_sparse_scalar_lookup_map.rs: new_raw", "frozen-collections-core/src/hash_tables/inline_hash_table.rs: new_raw", "frozen-collections-core/src/hash_tables/inline_hash_table_no_collisions.rs: new_raw", "frozen-collections-core/src/inline_maps/inline_scan_map.rs: new_raw", "frozen-collections-core/src/inline_maps/inline_eytzinger_search_map.rs: new_raw"]}
{"id": "C76", "title": "Stateful traits include ordinary ones", "statement": "Running construction and lookups against arbitrary streams of trait answers (C74) covers the ordinary case: for every choice of fixed trait functions, lawful or not, every public constructor, every input and every session of lookups and writes, some stream without panics gives exactly the replies, the final map, the error, the panic or the undefined behaviour that the constructor and the lookups give with these functions. The same holds of sessions on maps assembled by hand.", "quantifier": "every constructor, trait functions with 64-bit indices and hash codes, input, build mode, sequence of requests", "why_tests_cant": "Relates two descriptions of the same code; without it what is shown for arbitrary streams could be about some other code.", "anchors": ["frozen-collections-core/src/maps/decl_macros.rs: get, get_mut, get_key_value, contains_key", "frozen-collections-core/src/utils/dedup.rs: using_eq, using_hash, SortedAndDeduppedVec::new", "frozen-collections-core/src/utils/eytzinger.rs: eytzinger_search_by", "frozen-collections-core/src/hash_tables/hash_table.rs: new", "frozen-collections-core/src/hash_tables/decl_macros.rs: find, find_mut", "frozen-collections-core/src/analyzers/scalar_key_analyzer.rs: analyze_scalar_keys", "frozen-collections-core/src/fz_maps/fz_scalar_map.rs: new", "frozen-collections-core/src/fz_maps/fz_string_map.rs: with_hasher"]}
{"id": "C77", "title": "User-defined collection magnitudes", "statement": "HashMap is generic over CollectionMagnitude, a safe trait anyone can implement. If ZERO converts to 0 and storing the numbers up to MAX_CAPACITY neither enlarges them nor reverses their order, building ends with a map or an error and no lookup reads outside its arrays, whatever the traits of the keys do. If moreover these numbers come back unchanged, a map of lawful keys answers every query correctly, and the error is returned exactly if there are more distinct keys than MAX_CAPACITY. Both conditions are also necessary, already for integer keys with two hash codes. u8, u16 and usize satisfy them and give the tables of the other properties. A MAX_CAPACITY one larger than the type can hold leads to an out-of-range access.", "quantifier": "every implementation of the trait whose conversions are functions, every key type, hash, input and query", "why_tests_cant": "Tests use the three implementations of the crate; the trait promises nothing, and the unchecked accesses rely on it.", "anchors": ["frozen-collections-core/src/traits/collection_magnitude.rs: CollectionMagnitude", "frozen-collections-core/src/hash_tables/hash_table.rs: new, default", "frozen-collections-core/src/hash_tables/decl_macros.rs: find, find_mut", "frozen-collections-core/src/maps/hash_map.rs: with_hasher"]}
{"id": "C78", "title": "Clones", "statement": "The clone of a collection has the clones of its entries in the same places. If queries do not tell a key from its clone and the hasher's clone hashes alike, every lookup in the clone ends as it does in the original and returns the counterpart of what that returns; the clone of a map made from some entries answers like one made from their clones, and clone and original compare equal. Whatever Clone of keys and values does, cloning panics exactly if one of its calls does, causes no undefined behaviour, and the clone is as safe to use as the original, also with traits that keep state and panic. Clones of the set iterators go on as the originals do. A hash map over a user's CollectionMagnitude clones the numbers in its slots: all is well if that keeps them, but for every otherwise correct magnitude a Clone exists (Copy does not rule it out) with which a lookup in a clone reads outside its array.", "quantifier": "every collection, built by the crate or not, every Clone implementation, with state and panics, every query, every iterator state", "why_tests_cant": "Tests clone a few small maps with derived Clone; a field left out of or shared by the clone, or an impostor Clone, shows only in lookups that depend on it.", "anchors": ["frozen-collections-core/src/maps/dense_scalar_lookup_map.rs: derive(Clone)", "frozen-collections-core/src/maps/eytzinger_search_map.rs: derive(Clone)", "frozen-collections-core/src/maps/hash_map.rs: derive(Clone)", "frozen-collections-core/src/maps/iterators.rs: derive(Clone)", "frozen-collections-core/src/maps/scan_map.rs: derive(Clone)", "frozen-collections-core/src/maps/sparse_scalar_lookup_map.rs: derive(Clone)", "frozen-collections-core/src/inline_maps/inline_dense_scalar_lookup_map.rs: derive(Clone)", "frozen-collections-core/src/inline_maps/inline_eytzinger_search_map.rs: derive(Clone)", "frozen-collections-core/src/inline_maps/inline_hash_map.rs: derive(Clone)", "frozen-collections-core/src/inline_maps/inline_hash_map_no_collisions.rs: derive(Clone)", "frozen-collections-core/src/inline_maps/inline_scan_map.rs: derive(Clone)", "frozen-collections-core/src/inline_maps/inline_sparse_scalar_lookup_map.rs: derive(Clone)", "frozen-collections-core/src/fz_maps/fz_hash_map.rs: derive(Clone)", "frozen-collections-core/src/fz_maps/fz_ordered_map.rs: derive(Clone)", "frozen-collections-core/src/fz_maps/fz_scalar_map.rs: derive(Clone)", "frozen-collections-core/src/fz_maps/fz_string_map.rs: derive(Clone)", "frozen-collections-core/src/hash_tables/hash_table.rs: derive(Clone)", "frozen-collections-core/src/hash_tables/hash_table_slot.rs: derive(Clone)", "frozen-collections-core/src/sets/iterators.rs: impl Clone for Union, SymmetricDifference, Difference, Intersection"]}
{"id": "C79", "title": "Set operations with misbehaving traits", "statement": "Union, Difference, Intersection and SymmetricDifference over sets whose contains is at the mercy of Eq, Ord, Hash or Scalar implementations that keep state and panic, with panics out of next caught and the iterator used further: every call of next returns or panics, without undefined behaviour; the items are stored elements in the order of the sets, each stored element at most once; calls that do not return None are no more than there were elements left, and after the first None all others return None; the upper bound of size_hint holds; a panic comes from a trait method. A fresh Union yields the whole of its larger set first, so its lower bound holds too; the lower bound of the others is zero, and all hints are those of the iterators under functions as traits. is_disjoint, is_subset, is_superset and == answer or pass on a panic. This holds for sets from every constructor except the two of C74 that ask for an index again, and for any other set whose fields fit together; for those two it is false. The iterators under functions as traits are a special case.", "quantifier": "all sets, all streams of trait answers, all iterator states, any number of calls", "why_tests_cant": "Tests use well-behaved keys; a misbehaving key interacts with the position of two iterators and with a chain that drops its first half, in every order of answers and panics.", "anchors": ["frozen-collections-core/src/sets/iterators.rs: Union, Difference, Intersection, SymmetricDifference (next, size_hint)", "frozen-collections-core/src/traits/set_ops.rs: is_disjoint, is_subset, is_superset", "frozen-collections-core/src/sets/decl_macros.rs: eq, contains"]}
{"id": "C80", "title": "get_disjoint_mut with misbehaving traits and for BTreeMap", "statement": "get_disjoint_mut on a map whose fields fit together, with Eq, Ord, Hash or Scalar implementations that keep state and panic: no access outside of the map, one answer per key, every reference to a stored value; if no trait method panics, it panics exactly if the comparison of some pair of keys said equal. The lists of references that can come out are exactly the lists of answers one lookup can give, independently for every key, so in any map in which something can be found two references can be to one value although the duplicate check passed. MapExtras::get_disjoint_mut for BTreeMap, lawful traits: panics exactly for keys equal by Eq, otherwise every key gets the entry it compares equal to, and two references are to one value exactly if two keys compare equal to one stored key; never if Eq agrees with Ord, and for some lawful order with a finer Eq they are.", "quantifier": "all maps, all numbers of keys, all streams of trait answers; all BTreeMap contents, orders, equalities and keys", "why_tests_cant": "Tests use keys whose Eq, Ord and Hash agree and keep no state; which references alias under other traits depends on every answer given.", "anchors": ["frozen-collections-core/src/maps/decl_macros.rs: get_disjoint_mut, get_disjoint_unchecked_mut", "frozen-collections-core/src/utils/dedup.rs: has_duplicates", "frozen-collections-core/src/traits/map_extras.rs: impl MapExtras for BTreeMap"]}
{"id": "C81", "title": "Hash maps with lawful keys under a misbehaving hash builder", "statement": "For keys with a lawful Eq and a hash builder that keeps state and panics. FzStringMap: construction stores exactly the last entry of each key and panics only if the hash builder does; from then on, over any sequence of get, get_key_value, writes through get_mut and get_disjoint_mut with caught panics, the map behaves as an association list except that a key may not be found: no undefined behaviour, no two references to one value, no wrong value. The same holds for any hash map with distinct keys; if the hash builder does not panic, a call panics exactly for get_disjoint_mut with equal keys. HashMap and FzHashMap: construction is safe and keeps the last entry of each key, perhaps earlier ones too, and nothing else; calls are safe and yield values stored under an equal key; with some hash builder it is not the last value. Hash builders that are functions are included.", "quantifier": "all inputs, all key equalities, all streams of hash codes and panics, all sequences of calls", "why_tests_cant": "Tests use deterministic hash builders; which entries are found or kept depends on every code a stateful one returns.", "anchors": ["frozen-collections-core/src/fz_maps/fz_string_map.rs: with_hasher, get, get_mut, get_key_value, get_disjoint_mut", "frozen-collections-core/src/fz_maps/fz_hash_map.rs: with_hasher", "frozen-collections-core/src/maps/hash_map.rs: with_hasher", "frozen-collections-core/src/maps/decl_macros.rs: hash_primary_funcs, get_disjoint_mut_funcs", "frozen-collections-core/src/utils/dedup.rs: DeduppedVec::using_hash"]}
{"id": "C82", "title": "Collecting iterators and arrays", "statement": "From an array and FromIterator of the eight fz_ collections, for iterators that keep state, go on after None, give any size_hint and panic. A collection that comes out was made of exactly the items up to the first None, in their order, by the modelled constructor, so all other properties hold of it. It does come out of an iterator whose size_hint promises no more than follows and whose items, doubled, fit into isize::MAX bytes. An iterator that panics, or never ends, leads to a panic; collecting always ends and is never undefined behaviour. A size_hint that promises more than follows can make it panic although the items would fit. Arrays need no such conditions.", "quantifier": "all iterators over all state types, all item sequences and hints, all item sizes, all lawful traits", "why_tests_cant": "Tests collect from arrays and vectors, whose hints are exact; the vector's growth, lying hints, unfused and endless iterators need inputs no test builds.", "anchors": ["frozen-collections-core/src/fz_maps/fz_hash_map.rs: From, FromIterator", "frozen-collections-core/src/fz_maps/fz_ordered_map.rs: From, FromIterator", "frozen-collections-core/src/fz_maps/fz_scalar_map.rs: From, FromIterator", "frozen-collections-core/src/fz_maps/fz_string_map.rs: From, FromIterator", "frozen-collections-core/src/fz_sets/fz_hash_set.rs: From, FromIterator", "frozen-collections-core/src/fz_sets/fz_ordered_set.rs: From, FromIterator", "frozen-collections-core/src/fz_sets/fz_scalar_set.rs: From, FromIterator", "frozen-collections-core/src/fz_sets/fz_string_set.rs: From, FromIterator"]}
{"id": "C83", "title": "Debug output with failing printers and in the alternate form", "statement": "Printing maps, sets and their iterators with {:?} or {:#?}, where Debug of a key or value may write any pieces and then succeed, fail or panic, and the writer may refuse any piece. A map prints, in iteration order, each key once with the value given last for it, up to the first key or value that fails or panics, whose written part it still prints, and ends as that one did; the closing brace appears exactly if all were complete. With {:#?} every entry stands on lines of its own, ended by a comma and indented by four blanks, nested to any depth. Sets print elements; Iter, Keys, Values, the iterator of sets, Union, Difference and Intersection print, in any state, what they have yet to yield; the others print what C69 says. With {:?} and printers that succeed the text is that of C69. A writer gets the pieces in order, nothing after the first it refuses, and then printing fails.", "quantifier": "every map and set, every iterator state, every behaviour of the printers of keys and values, every writer", "why_tests_cant": "Tests print with derived Debug of small integers into a growing String; nothing fails, and the alternate form is not looked at.", "anchors": ["frozen-collections-core/src/maps/decl_macros.rs: debug_trait_funcs", "frozen-collections-core/src/sets/decl_macros.rs: debug_trait_funcs", "frozen-collections-core/src/maps/iterators.rs: Debug", "frozen-collections-core/src/sets/iterators.rs: Debug"]}
{"id": "C84", "title": "Trait calls per query under misbehaving traits", "statement": "A query (get, get_mut, get_key_value, contains_key) on a map calls the trait methods it relies on (eq, cmp, hash, index, comparison with the stored key) a number of times that lies between two bounds given by the map's fields alone, whatever the methods answer and however they change their answers: a scan map asks exactly once per entry, an ordered map at least once (if not empty) and at most 1 + floor(log2 len) times, scalar maps once, a hash map once for the code and then at most the size of the fullest slot a code can reach and at least 1 if no such slot is empty, a map without collisions once or twice. So every query ends, even with an inconsistent ordering; it panics only where one of these calls does. Both bounds are attained for every map. None exceeds len + 1. get_disjoint_mut with k keys compares all k(k-1)/2 pairs first and then asks k queries, and panics only if a call does or a comparison of keys says equal. Building a scan map takes between len - 1 and len(len-1)/2 comparisons, both attained. Building a hash table hashes every entry exactly twice, whatever the codes. After the removal of duplicates has left n entries, FzHashMap::new makes 2n further calls, FzScalarMap::new 2n+2, 3n+2 or 4n, depending on whether the map becomes a dense, a sparse or a hash one, SparseScalarLookupMap::new n+2 and DenseScalarLookupMap::new 4, or 2 if it fails.", "quantifier": "all maps whose fields fit together (each kind), all requests, all streams of answers and panics, all starting points of the stream, all numbers of keys and entries", "why_tests_cant": "A test fixes one implementation of the traits; the claim quantifies over all implementations with state, and states worst cases that one would have to know how to provoke.", "anchors": ["frozen-collections-core/src/maps/decl_macros.rs: get, get_mut, get_key_value, get_disjoint_mut", "frozen-collections-core/src/hash_tables/decl_macros.rs: find, find_mut", "frozen-collections-core/src/hash_tables/inline_hash_table_no_collisions.rs: find, find_mut", "frozen-collections-core/src/utils/eytzinger.rs: eytzinger_search_by", "frozen-collections-core/src/utils/dedup.rs: DeduppedVec::using_eq, has_duplicates", "frozen-collections-core/src/hash_tables/hash_table.rs: HashTable, new", "frozen-collections-core/src/analyzers/scalar_key_analyzer.rs: analyze_scalar_keys", "frozen-collections-core/src/maps/dense_scalar_lookup_map.rs: from_sorted_and_dedupped", "frozen-collections-core/src/maps/sparse_scalar_lookup_map.rs: from_sorted_and_dedupped", "frozen-collections-core/src/fz_maps/fz_scalar_map.rs: new", "frozen-collections-core/src/fz_maps/fz_hash_map.rs: new"]}
{"id": "C85", "title": "Trait calls of comparisons and set operations under misbehaving traits", "statement": "Comparing two maps of different lengths calls no trait method and says no; comparing maps of equal length takes at most one lookup in the other map and one comparison of values per entry, and says yes only after as many successful rounds as there are entries, whatever the methods answer; it always ends and panics only where a method does, even if nothing is known of the left map. The subset, superset and equality tests of sets whose lengths decide the answer call nothing; otherwise each test asks about the elements of one set at most once each and says yes only after having asked about all of them; disjointness asks about the elements of the smaller set. The iterators for union, intersection, difference and symmetric difference, however often they are called, from any state, ask about each remaining element of one set (the smaller one for union and intersection) exactly once by the time they say None; so their trait calls lie between the number of those elements times the fewest and times the most calls of a lookup (C84), and both bounds are attained (for the symmetric difference, from its start). Trait implementations that are functions are a special case.", "quantifier": "all maps and sets whose fields fit together, all pairs of kinds, all iterator states, all numbers of calls of next, all streams of answers and panics", "why_tests_cant": "Counting calls in a test covers one implementation of the traits and one pair of collections; the claim covers all implementations with state, all pairs and all iterator states.", "anchors": ["frozen-collections-core/src/maps/decl_macros.rs: eq", "frozen-collections-core/src/sets/decl_macros.rs: eq", "frozen-collections-core/src/sets/iterators.rs: Union, Intersection, Difference, SymmetricDifference", "frozen-collections-core/src/traits/set_ops.rs: is_disjoint, is_subset, is_superset"]}
{"id": "C86", "title": "Deserialization from accesses that may do anything", "statement": "A MapAccess or SeqAccess may keep state, lie or panic in size_hint, fail, panic, go on after its end or never end. Deserializing any frozen collection from it always comes to an end and has no undefined behaviour. It returns a collection only if the access gave a finite run of items and then Ok(None), and the collection is the one made of exactly these items (for repeated keys the last one wins); it returns an error only if that was the first thing other than an item, the same error; in both cases the access is not asked again afterwards. Both do happen if the hint is allocatable and the items were announced or fit into memory when doubled. String collections fail at the first string they cannot borrow and take all others. A panic of the access comes through, an unallocatable hint is a panic, and an access without end is cut off by the panic of a vector that cannot grow. On accesses that read off a list this is the visitor of C56.", "quantifier": "all accesses with any state, all element sizes including zero, all eight frozen collections, all lawful key types", "why_tests_cant": "A test must choose an access; sources that never end, that resume after the end, or whose size hint changes state or panics are not written in tests, and a run without end cannot be observed by running.", "anchors": ["frozen-collections-core/src/fz_maps/fz_hash_map.rs: visit_map", "frozen-collections-core/src/fz_maps/fz_ordered_map.rs: visit_map", "frozen-collections-core/src/fz_maps/fz_scalar_map.rs: visit_map", "frozen-collections-core/src/fz_maps/fz_string_map.rs: visit_map", "frozen-collections-core/src/fz_sets/fz_hash_set.rs: visit_seq", "frozen-collections-core/src/fz_sets/fz_ordered_set.rs: visit_seq", "frozen-collections-core/src/fz_sets/fz_scalar_set.rs: visit_seq", "frozen-collections-core/src/fz_sets/fz_string_set.rs: visit_seq"]}
{"id": "C87", "title": "Every way of calling a function of a collection gives the same answer", "statement": "The collections offer their functions as inherent functions and through Len, MapQuery, MapExtras, MapIteration, SetQuery, SetExtras, SetIteration, Index and IntoIterator (by value, by shared and by mutable reference). Most of these bodies only hand the call on: to the function of the same name, to the map inside a wrapper, to one variant of an enum. For every map and set type of the crate, every variant inside it and every function of these interfaces, the call comes to an end (no body hands the call back to itself, also where the inherent function is private and the call is resolved to the trait), and what it answers is determined by the entries: number of entries, emptiness, value, position, entry and membership of the key asked for, a panic of Index exactly for absent keys and of get_disjoint_mut exactly for repeated ones, and the surviving entries, keys or values in iteration. The function of a trait answers what the inherent function of that name answers, whatever the code below does. The implementations for the collections of std and hashbrown answer what these collections' own functions answer; the one for std's HashMap relies on the inherent get_disjoint_mut of Rust 1.86.", "quantifier": "all 25 collection types with every variant of their inner map, the 6 foreign ones, all functions and origins, all maps made from any entries, all queries", "why_tests_cant": "The tests call a sample of these functions on a sample of the types, mostly through the inherent functions; a forwarding body that calls itself compiles and shows only when that very function is called through the trait.", "anchors": ["frozen-collections-core/src/maps/decl_macros.rs: common_primary_funcs, len_trait_funcs, map_query_trait_funcs, map_extras_trait_funcs, map_iteration_trait_funcs, into_iterator_trait_funcs, index_trait_funcs", "frozen-collections-core/src/sets/decl_macros.rs: common_primary_funcs, hash_primary_funcs, set_query_trait_funcs, set_extras_trait_funcs, set_iteration_trait_funcs", "frozen-collections-core/src/fz_maps/fz_hash_map.rs", "frozen-collections-core/src/fz_maps/fz_ordered_map.rs", "frozen-collections-core/src/fz_maps/fz_scalar_map.rs", "frozen-collections-core/src/fz_maps/fz_string_map.rs", "frozen-collections-core/src/fz_sets/fz_hash_set.rs", "frozen-collections-core/src/fz_sets/fz_ordered_set.rs", "frozen-collections-core/src/fz_sets/fz_scalar_set.rs", "frozen-collections-core/src/fz_sets/fz_string_set.rs", "frozen-collections-core/src/inline_sets/inline_scan_set.rs: len", "frozen-collections-core/src/traits/map_extras.rs", "frozen-collections-core/src/traits/map_iteration.rs", "frozen-collections-core/src/traits/len.rs: Len"]}
{"id": "C88", "title": "Which key orders hurt a scalar map", "statement": "Scalar asks for Ord and for an index, but nothing makes them agree. For every key type whose Ord is a total order that has the same equal keys as the index, and every input whose indices do not span all of usize: (1) if the indices fill a range, FzScalarMap::new succeeds, and it looks the supplied keys up rightly if and only if the two orders agree on the supplied keys; the same holds for every input that DenseScalarLookupMap::new accepts; (2) if they leave gaps and the range is more than 128 and at least ten times the number of keys, the order plays no part and every answer is right; (3) if they leave gaps in a smaller range (and for SparseScalarLookupMap::new likewise), the map is right if the first key by Ord has the least index and the last the greatest, whatever happens in between, and construction panics otherwise, in release builds because no vector can be larger than isize::MAX bytes. So in a FzScalarMap only keys that fill a range can be silently mixed up. Used directly, SparseScalarLookupMap::new panics likewise as long as the table that the keys need is within that limit; keys further apart can be lost silently in release builds. For keys whose order is that of the index, FzScalarMap::new never meets the limit as long as 80 bytes per distinct key are within it.", "quantifier": "all key types with such an order, all inputs, both build modes, all queries", "why_tests_cant": "The tests use types whose order is that of the index; a counterexample (C48) shows that damage is possible, not where it stops.", "anchors": ["frozen-collections-core/src/fz_maps/fz_scalar_map.rs: new", "frozen-collections-core/src/maps/dense_scalar_lookup_map.rs: new, from_sorted_and_dedupped", "frozen-collections-core/src/maps/sparse_scalar_lookup_map.rs: new, from_sorted_and_dedupped", "frozen-collections-core/src/analyzers/scalar_key_analyzer.rs: analyze_scalar_keys", "frozen-collections-core/src/traits/scalar.rs: Scalar"]}
{"id": "C89", "title": "Len of strings, std collections and pointers", "statement": "Every implementation of Len in traits/len.rs returns, through any number of Box, Rc and Arc, with the number of bytes of the text held (a C string without its NUL) or the number of items held, and is_empty says whether that is 0. None calls itself for ever, although the body self.len() would do so for every type without a len of its own. Hence the length hasher gives a text the same code whatever type holds it, namely the one by which the tables were laid out.", "quantifier": "all values of all these types, any nesting of pointers", "why_tests_cant": "Tests try one value per type; none nests pointers or compares the codes of different holders of the same text, and whether self.len() means the function of the type or the one being defined is decided by rustc, silently.", "anchors": ["frozen-collections-core/src/traits/len.rs: Len", "frozen-collections-core/src/hashers/length_hasher.rs: hash_one"]}
{"id": "C90", "title": "The code printed by derive(Scalar)", "statement": "For every enum that derive(Scalar) accepts, the printed tokens read as an implementation of Scalar for that enum with its own generics and where clause; the arms of its match are exactly the variants, and index of each is its place in the declaration. With the derived Ord this is a lawful Scalar, with indices 0, 1, 2, .. without gaps, and a FzScalarMap keyed by it looks up by variant, through the dense table if every variant is a key. Every other input is refused, with the message for the first thing wrong with it.", "quantifier": "all parsed derive inputs: any name, generics, where clause and variants", "why_tests_cant": "Tests look at a few enums and only check that some error occurs; that the order of the indices is that of Ord is a relation between two derives.", "anchors": ["frozen-collections-core/src/macros/derive_scalar_macro.rs: derive_scalar_macro"]}
{"id": "C91", "title": "Limitation: repeated keys make freezing a hash map quadratic", "statement": "DeduppedVec::using_hash notes the entries to be dropped in a vector and searches it from the start for every entry. So FzHashMap::new and with_hasher, HashMap::with_hasher and emitted hash collections, and hence FromIterator and Deserialize, given n entries of which d are superseded by later ones with the same key, compare indices exactly (n-d)*d + d*(d+1)/2 times: never if no key is repeated, more than n*n/3 times if every key is there twice, and (n-1)*(n+2)/2 times, which is the most, if all keys are the same. The first holds whatever Eq and Hash do. Counting aside, the result is that of C32.", "quantifier": "all lists of entries, all equality and hash functions", "why_tests_cant": "The result is right, so no test fails; the cost shows only with many repeated keys, which benches do not have. That the formula is exact and what the worst case is are statements about all inputs.", "anchors": ["frozen-collections-core/src/utils/dedup.rs: using_hash", "frozen-collections-core/src/fz_maps/fz_hash_map.rs: with_hasher", "frozen-collections-core/src/maps/hash_map.rs: with_hasher"]}
{"id": "C92", "title": "Sizing hash tables never overflows", "statement": "The hash code analyzer multiplies, adds and rounds up to powers of two in usize without checking, and HashTable::new allocates what it asks for. On machines with usize of any width from 16 bits on, in debug and release builds, none of this arithmetic overflows for any number of hash codes: too many codes are stopped by the panic when they are collected (isize::MAX bytes), and for all others the result is that of exact arithmetic. HashTable::new gives what it gives without bounds as long as 8 bytes, one prepared item and 20 slots per entry fit into isize::MAX bytes each; so a FzHashMap of that many distinct lawful keys is built without panic and answers rightly, at every width from 16 to 64 bits.", "quantifier": "all widths from 16 bits on, both build modes, all lists of hash codes and entries", "why_tests_cant": "Overflow would need hundreds of millions of entries or a 16-bit machine; tests run on 64 bits with small tables.", "anchors": ["frozen-collections-core/src/analyzers/hash_code_analyzer.rs: analyze_hash_codes", "frozen-collections-core/src/hash_tables/hash_table.rs: new", "frozen-collections-core/src/utils/bitvec.rs: with_capacity", "frozen-collections-core/src/fz_maps/fz_hash_map.rs: with_hasher"]}
