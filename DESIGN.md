# Formal model of frozen-collections: design

Source: `/repo` (geeknoid/frozen-collections). Unless said otherwise, paths are relative to
`/repo/frozen-collections-core/src`. The code is never built or run; the model is a reading of the text.

## Approach

* Gallina functions over stdlib `list`, `nat` (positions, lengths), `N` (machine integers, hash codes, bytes) and `Z`
  (signed integer values).
* A panic is `Panic`, an out-of-range `get_unchecked` is `UB`, a normal return is `Ok`; theorems exclude `Panic`/`UB`
  by asserting equality with `Ok ...`. `Result::Err` is `RErr`.
* `usize` is 64 bits, except in `ModelWidth.v`, which repeats the constructors that depend on its width for any width (C63; the
  general theorems about maps cover those too). Arithmetic that could overflow is modelled in two build modes: `Debug` (overflow panics) and
  `Release` (wraps). The `Scalar` implementations are modelled for 32- and 64-bit pointers.
* References are positions: `get_mut` returns the position of the value it borrows, writing through it is an update of
  that position. Aliasing is equality of positions, except in C68 and C73, where every reborrow is an event that an aliasing model accepts or
  rejects.
* Trait-provided behaviour (Eq, Hash, Ord, Equivalent, Comparable, Scalar, BuildHasher, serializers, `syn`'s expression and
  type parsers, `sort_unstable_by_key`) appears as function arguments. The laws required of them are named predicates in the
  `Spec*.v` files and are explicit hypotheses of the theorems. C51 proves memory safety without these laws, C74 without even
  assuming that the traits are functions.
* Loops are structural recursion on the list they traverse, or explicit fuel with an out-of-fuel error that the theorems
  exclude.

## Layout (rocq/theories)

| file | content |
|---|---|
| `Prelude.v` | result type, checked arithmetic, list access, bit helpers |
| `Spec.v` | specification vocabulary: laws of Eq/Hash/Ord/Scalar, "last entry matching", set semantics, search |
| `SpecMade.v` | `made`: the maps that the constructors can produce; `answers`: what an exact map answers |
| `SpecTarget.v` | what an emitted collection answers on a target with another hash function (C64) |
| `SpecScan.v` | the number of comparisons while removing repeated keys (C91) |
| `SpecWork.v` | records of work and their counts, lengths of side tables (C65) |
| `ModelWork.v` | the slice and hash code analyzers once more, recording comparisons, hashed stretches, table sizes and codes looked at; `ProofsWork.v` proves that without the record they are the analyzers of `ModelAnalyzers.v` |
| `SpecSets.v`, `SpecAnalysis.v`, `SpecSafe.v`, `SpecEmit.v`, `SpecMacros.v`, `SpecParsing.v`, `SpecCross.v`, `SpecTypes.v`, `SpecSerde.v`, `SpecHistory.v`, `SpecSetHistory.v` | specifications of the set operations, analyzers, unlawful traits, emitted code, macros, macro grammar, cross compilation, type checking, serialization, histories of calls |
| `ModelUtils.v` | `utils/dedup.rs`, `utils/bitvec.rs`, `utils/eytzinger.rs` |
| `ModelAnalyzers.v` | `analyzers/*` |
| `ModelTables.v` | `hashers/*`, `hash_tables/*`, `traits/collection_magnitude.rs` |
| `ModelMaps.v` | `maps/*` and `inline_maps/*` (construction and queries), `fz_maps/*`, `fz_sets/*`, `inline_sets/*` (as maps to unit) |
| `ModelIter.v` | `maps/iterators.rs`, `sets/iterators.rs`, `traits/set_ops.rs`, set operators of `sets/decl_macros.rs` |
| `ModelScalar.v` | `traits/scalar.rs`, `macros/derive_scalar_macro.rs` |
| `ModelEmit.v` | `emit/*` up to the constructor call printed, and the run-time meaning of that call |
| `ModelTypes.v` | the types and items printed by `emit/generator.rs` and `emit/collection_emitter.rs` |
| `ModelTokens.v` | the `quote!` templates of `emit/*`, token by token |
| `ModelRun.v` | evaluation of the syntax in `ModelTypes.v`, with the bodies of the constructors it calls |
| `SpecTokens.v`, `SpecRun.v` | a reader for the fragment of Rust that is emitted; printed code that is the collection asked for |
| `ModelMacros.v`, `ModelParsing.v` | `macros/processor.rs`, `macros/macro_api.rs`, `macros/parsing/*` |
| `ModelProcMacro.v` | `macros/macro_api.rs` as a function from tokens to tokens: parsing, processing and printing in a row |
| `SpecProcMacro.v` | what a macro call is to become (C70) |
| `ModelSerde.v` | `Serialize`/`Deserialize` of maps and sets |
| `ModelArith.v` | the hash code analyzer and `HashTable::new` with overflowing arithmetic of any width and limited vectors |
| `ModelScan.v` | `DeduppedVec::using_hash` once more, counting what `dupes.contains` compares |
| `ModelAlloc.v` | construction of scalar maps with std's limit of `isize::MAX` bytes for the lookup table (`ModelMaps.v` assumes that it can be allocated) |
| `ModelWidth.v` | the scalar analyzer, slice analyzer and the constructors of dense, sparse, scalar and string maps for any `usize::MAX` |
| `ModelHistory.v` | client code making calls on a map (not part of the crate) |
| `ModelSetHistory.v` | `count` of the set iterators; client code making calls on sets and combining them (not part of the crate) |
| `SpecAliasing.v` | Stacked Borrows and Tree Borrows for one array (C68) |
| `ModelBorrows.v` | `get_mut` and `get_disjoint_mut` once more, recording every reborrow of the entries; `ProofsBorrows.v` proves that without the record they are the functions of `ModelMaps.v` |
| `SpecPhases.v` | what a client does to a map as far as the borrow checker allows it (C73) |
| `ModelLookups.v` | `get`, `get_key_value` and the iterators once more, recording every reborrow of the entries; a client making calls in phases (the latter not part of the crate) |
| `SpecDebug.v`, `ModelDebug.v` | what `{:?}` should print; the `Debug` implementations (C69) |
| `ModelHostile.v` | construction and queries once more, each trait call taking its answer from an arbitrary stream (C74, C75) |
| `SpecHostile.v` | when the fields of a map fit together |
| `SpecCovers.v` | programs over `ModelMaps.v` with fixed trait functions, to compare with those of `ModelHostile.v` (C76) |
| `SpecMagnitude.v`, `ModelMagnitude.v` | the trait `CollectionMagnitude` and what it should obey; hash tables over any implementation of it (C77) |
| `ModelClone.v`, `SpecClone.v` | `Clone` of the maps and set iterators; what a clone has to be (C78) |
| `ModelHostileIter.v`, `SpecHostileIter.v` | set iterators and comparisons once more over such sets, panics caught; what they may do at most (C79) |
| `ModelDisjoint.v`, `SpecDisjoint.v` | `get_disjoint_mut` once more over such maps, and for `BTreeMap` (its entries in order); what a lookup can answer, aliasing (C80) |
| `ModelHasher.v`, `SpecHasher.v` | hash maps of lawful keys over a hash builder that keeps state and panics; a map that may not find a key (C81) |
| `ModelCollect.v`, `SpecCollect.v` | `From` arrays and `FromIterator` of the `fz_*` collections over iterators that keep state, panic, hint anything; std's growing vector (C82) |
| `ModelPretty.v`, `SpecPretty.v` | `Debug` with `{:?}` and `{:#?}` over printers and writers that fail or panic: outputs are lists of pieces and an ending (C83) |
| `SpecCalls.v` | bounds on the trait calls of a query, read off the fields of a map of `ModelHostile.v` (C84) |
| `ModelHostileEq.v`, `SpecAsked.v` | equality of maps once more over such maps; how often comparisons and set iterators ask (C85) |
| `ModelForward.v`, `SpecForward.v` | the functions that only hand a call on: inherent and trait functions of all collections, visibility, method resolution (C87) |
| `SpecOrder.v` | scalar keys whose order is not that of the indices (C88) |
| `ModelLen.v`, `SpecLen.v` | `Len` for std types: what each body calls, with the meaning of `self.len()` as rustc resolves it; the length hasher (C89). Assumed of std: which types have a `len` of their own, and that it counts bytes or items |
| `ModelDerive.v`, `SpecDerive.v` | the tokens printed by derive(Scalar); a reader for them, and what the implementation read computes (C90) |
| `ModelAccess.v`, `SpecAccess.v` | `visit_map` and `visit_seq` once more, over accesses with state that may panic or never end (C86) |
| `ModelCost.v` | the searches again, logging the comparisons made (C47) |
| `Proofs*.v` | lemmas |
| `Properties*.v` | property theorems only, with `Print Assumptions` and a concrete Example per property |
| `Instances.v` | concrete instances of the laws, used in Examples |

## Properties

| id | model | proof idea |
|---|---|---|
| C01, C08 | `using_hash`, hash analyzer, `HashTable::new`/`find`, `HashMap`, `FzHashMap` | table invariant: slot s holds exactly the range of entries whose hash falls in s; refinement to last-match spec |
| C02 | stable sort and dedup, Eytzinger layout and search, `FzOrderedMap`, inline form | C31 |
| C03, C06, C07 | scalar analyzer, dense/sparse/hash maps, `FzScalarMap` | case analysis over the representation; count/span pigeonhole over sorted distinct indices |
| C04 | slice analyzer, range hashers, `FzStringMap` | hash of key = hash of equal query |
| C05 | `using_eq`, scan maps | list induction |
| C09 | set wrappers over maps with unit values | corollary of map theorems |
| C10, C11 | entries list of each map | permutation of the survivors of dedup |
| C12-C15 | separately modelled `get`/`get_mut`/`get_key_value`/`contains_key`/index/`get_disjoint_mut` | per implementation; C15 refuted, with exactly when two answers are one reference and exactly which query types are safe |
| C16, C17 | `partial_eq` macros over an abstract map/set interface | counting (pigeonhole on NoDup) |
| C18-C23, C50 | set iterators as state machines | invariants on iterator states; C23 refuted, with exactly the states in which the bound is wrong |
| C24 | map iterators as state machines over slice iterators | direct |
| C25, C26, C51, C52 | `Ok` in the theorems above; C51 without any law | invariants on array bounds; C52 refuted |
| C27, C48 | scalar analyzer overflow, arbitrary Ord | refutation witnesses; C63 and C88 say exactly when |
| C28 | `hash_code_analyzer.rs`, `bitvec.rs` | loop invariant, power-of-two lemmas |
| C29, C30 | `slice_key_analyzer.rs`, `scalar_key_analyzer.rs` | loop invariant; pigeonhole |
| C31 | `eytzinger.rs` | cycle invariant for the in-place layout; in-order rank formula |
| C32 | `dedup.rs` | list induction |
| C33, C49 | `scalar.rs`, `derive_scalar_macro.rs` | xor-with-sign-bit lemma; direct |
| C34-C38 | `collection_emitter.rs`, `generator.rs` producing abstract syntax, plus its run-time meaning | refinement to last-match; C38 refuted in part |
| C39, C53-C55 | `processor.rs`, `macro_api.rs` | fold invariance; end to end via C34-C38 |
| C40, C41 | `inject_underscores`, `preflight`/`postflight` | list induction; case analysis |
| C42, C43, C56 | serialize, `visit_map`, `visit_seq` | refinement; C43 and part of C56 refuted |
| C44 | hashers | direct |
| C45, C46 | above | corollaries |
| C47 | `ModelCost.v` | potential argument |
| C57, C58 | `macros/parsing/*` composed with the above | grammar relation, soundness and completeness; end to end |
| C59 | expansion with 64-bit indices, run with 32-bit indices | the indices agree up to a multiple of 2^31; refuted for cut-off bounds |
| C60, C61 | `ModelTypes.v` on top of the emitter and macro models | typing rules for the printed syntax with the signatures of the constructors; inversion; C61 refuted |
| C62 | `ModelHistory.v` over any map | simulation by a list of entries, step by step |
| C63 | `ModelWidth.v` | span and count as at 64 bits, but for the overflow at the two ends; refuted for keys at both ends |
| C64 | emitted hash tables searched with any other hash function (`SpecTarget.v`) | a slot other than the key's own holds no equal key; refuted for keys whose slots differ |
| C65 | counts over the record (`SpecWork.v`) | linear in the total key size; at most 20 slots per entry; the records leave nothing out (`C65_slice_record`: answers outside the record do not matter; `C65_hash_record`: the exact record). What std's sort, hash map and foldhash cost is not counted, nor is the removal of repeated keys, which is not linear (C91) |
| C66 | `ModelTokens.v` read by `SpecTokens.v` | compositional lemmas: each template reads as its syntax whatever follows it; refuted for keywords as names |
| C67 | the result evaluated by `ModelRun.v` | evaluation agrees with `ctor_compiles` and `run_ctor`; then C34-C36, C53, C54 |
| C68 | `ModelBorrows.v` run by `SpecAliasing.v` | location by location: a discipline of reborrows that Tree Borrows accepts; a mutable reborrow from the owner empties the stack of Stacked Borrows, and reads leave raw pointers in it, so a call is defined there exactly if no key found is followed by a lookup that reborrows mutably; refuted for two keys |
| C69 | `ModelDebug.v` | the builders concatenate; draining lemmas of the iterators; three refutations |
| C70 | `ModelProcMacro.v`, read by `SpecTokens.v` and evaluated by `ModelRun.v` | C57/C58, C66, C60 and C67 composed; names that parse are names that print |
| C71 | `ModelIter.v`, `ModelSetHistory.v` | a state from which nothing comes leads only to such states; a measure bounds what is still to come |
| C72 | `ModelSetHistory.v` over any sets | simulation by lists of different elements, step by step |
| C73 | `ModelBorrows.v`, `ModelLookups.v` run by `SpecAliasing.v` | shared reborrows never pop each other; what earlier phases left is only ever popped or disabled by the owner, and grants nothing, the names of different phases being disjoint; so a history is defined exactly if each phase is |
| C74 | `ModelHostile.v` | a weakest-precondition style predicate over all streams; `sound` is what unchecked accesses need, and a constant stream refutes it otherwise; two refutations |
| C75 | `ModelHostile.v` on the records `new_raw` builds | C74, and which slots a mask reaches; one refutation |
| C76 | `ModelHostile.v` against `ModelMaps.v` | for each function, the list of answers with which the hostile version does what the plain one does; any permutation can come out of the hostile sort |
| C77 | `ModelMagnitude.v` | a table over any magnitude is the table over `usize` with its slots converted; a map of keys 0..v in two slots shows what each number becomes; one refutation |
| C78 | `ModelClone.v` | original and clone walked side by side, by position; what C74 needs of a map is unchanged by cloning; one refutation |
| C79 | `ModelHostileIter.v` | each step takes a piece off the front of what is left; as in C76 some answers make it do what `ModelIter.v` does; one refutation |
| C80 | `ModelDisjoint.v` | answers that steer a lookup to any entry (the way down the search tree, the slot of a hash), one after another; two refutations |
| C81 | `ModelHasher.v` | whatever slot a code leads to, equality is checked there; so hits are right and distinct queries hit distinct places; some codes make it do what `ModelMaps.v` does; one refutation |
| C82 | `ModelCollect.v` | the vector's length never exceeds its capacity, the capacity never `usize::MAX`, so the loop ends; under honest hints the capacity stays below twice the items; one refutation |
| C83 | `ModelPretty.v` | what is written through a `PadAdapter` piece by piece is the indented text; a fold of fields is rows up to the first that breaks off |
| C84 | `ModelHostile.v`, `ModelDisjoint.v` | a judgement "between lo and hi calls, and a panic is one of theirs" that composes; constant streams of answers that are the worst and the best case; for constructors, the calls after duplicates are gone |
| C85 | `ModelHostileEq.v`, `ModelHostileIter.v` | the judgement of C84 per element; for the iterators, what is left to ask as a function of the state, which each step pays for; for symmetric differences, two streams spliced, as code sees only the answers it uses |
| C86 | `ModelAccess.v` | induction on the fuel; the vector's capacity bounds the number of turns; string keys and `(x, ())` pairs by converting the access |
| C87 | `ModelForward.v` | every type, function and way of calling it is a case that computes; answers from `made` |
| C88 | scalar constructors with an order that is not that of the indices | positions of the sorted entries against their indices; filling the table panics on the first index outside; if the subtraction wraps around, the table is larger than any vector or has no slot at all |
| C89 | `ModelLen.v` | induction on pointers |
| C90 | `ModelDerive.v` | the reader run on the template; list induction for the arms |
| C91 | `using_hash`, any equality and hash | one more noted index costs one comparison per entry, less those spared at that index; the noted indices are distinct and never the last |
| C92 | `ModelArith.v` | collecting the codes limits their number to 2^(w-4), so that sizes stay below 2^(w-2) and their doubles fit |

## Trusted base

* The kernel of Coq 8.16.1.
* `Print Assumptions` reports "Closed under the global context" for every theorem in `Properties*.v`, so for every theorem named in
  `MANIFEST.json`. There are no axioms, neither of this development nor of the standard library, behind any of them.
* Loading `Lia` loads `ssreflect` files of the standard distribution, whose module `Coq.ssr.ssrunder.Under_rel` declares the
  parameters `Under_rel`, `Under_rel_from_rel`, `Under_relE`, `Over_rel`, `over_rel`, `over_rel_done`, `under_rel_done`. They are in
  the environment (`vcheck` lists them) and used by no theorem.
* The reading of the Rust text that the `Model*.v` files are. Every definition cites the lines it stands for and names its
  simplifications.
* The specifications in `Spec*.v`.

### Modelled

Everything that decides what a collection answers: duplicate removal, analyzers, hashers, hash tables, layouts, construction and
lookup of every map and set type (owned, inline, Fz), iterators, set operations, equality, disjoint mutable access, serialization and
deserialization, the built-in and derived `Scalar`, code emission, the macros from token stream to expansion, and the meaning of
the expansion.

Simplifications that matter:

* `hashbrown::HashTable` in `using_hash` is a list searched by hash and equality; `hashbrown::HashSet`, the result of the set
  operators, is a list without duplicates; both as documented by that crate.
* `sort_unstable_by_key` is any function that returns a sorted permutation; `sort_by` is a stable insertion sort.
* Inline maps and sets are modelled by the constructors the emitter prints and by the shared query macros.
* The emitted code is modelled three times: as a decision (`ModelEmit.v`: constructor, arrays, hasher, declaration form), as syntax
  (`ModelTypes.v`), as tokens (`ModelTokens.v`). C66 says that the tokens read as the syntax, C67 that the syntax evaluates to what
  `ctor_compiles` and `run_ctor` say of the decision, C60 when it type checks. Typing leaves out trait bounds other than `AsRef<str>`,
  lifetimes, privacy, coercions and paths (`::frozen_collections::...`). What the user wrote (types, expressions, a visibility) is one
  token; `::` and `||` are one token; `proc_macro2`'s test for identifiers is an argument.
* `get_seed` (a random number) is an argument; theorems hold for every seed. `FixedState` is a function from seeds to hashers.
* Hash functions (`foldhash`, `Hash` implementations) are arbitrary.
* Parsing: spans, the wording of syntax errors and delimiter-free groups are dropped; the path in `pub(in path)` is not checked.

### Not modelled

* Spans and hygiene of generated tokens; documentation, `#[allow]` attributes and formatting.
* Trait plumbing beyond `ModelForward.v` and `ModelLen.v`: `Clone` of the map iterators (copies
  of slice iterators), type and lifetime parameters of the forwarding functions. That rustc prefers a visible inherent function to one of a trait, and
  does not see a private one from another module, is part of the reading.
* `Debug` of analyzers, hashers and tables (derived).
* `utils/hints.rs` (an empty function).
* Lifetimes and borrow checking; in the aliasing models of C68 and C73 protectors, two-phase borrows, interior mutability and the references that
  are merely passed on; a `*const` pointer counts as a shared reference. That the borrow checker allows no more than the phases of
  `SpecPhases.v` is part of the reading. `MapExtras` for std's and hashbrown's hash maps forwards (`traits/map_extras.rs` L27-34, L64-73).
* Allocation failure other than capacity overflow in deserialization (C82, C86), collecting (C82), the table of sparse scalar maps (C88) and hash tables (C92), stack size.
* `frozen-collections/src/lib.rs` (re-exports), `frozen-collections-macros` (forwards to `macro_api.rs`), `build.rs`, benches, tests.

## Wrong programs (seeded/LOG.jsonl)

Each line is one edit of a model definition, rebuilt in a scratch copy. `proofs_failed` are the lemmas, theorems and examples whose proof no longer
goes through. Each is then admitted so that the build can go on, and `theorems_failed` are the property theorems that rest on an admitted one.
So a theorem listed there is one whose proof broke, directly or through a lemma it uses. It is not shown to be false of the edited program, and
because lemmas such as `ProofsMaps.eyt_ok` support many theorems, an edit to one kind of map can list theorems about another. An empty
`theorems_failed` means that no property theorem noticed; such a line is followed by one whose `theorems_tightened` names the theorems
strengthened, unless its claim says that no property is meant to notice.
In the later lines checking stops at the first lemma that fails, and `theorems_failed` are the property theorems that use it according to the
recorded references.

## What the proofs turned up

* C15: `get_disjoint_mut` compares queries with their own `Eq`; if that is finer than equivalence to keys, two returned references
  alias.
* C80: the same holds for `BTreeMap`, whose own interface offers no such method, if `Eq` of the queries is finer than their `Ord`; and with stateful
  traits for every map in which anything can be found. Both need only safe code in the traits.
* C81: a lawful `Eq` is enough to rule that out in hash maps, whatever the hash builder does. So `FzStringMap`, whose keys compare as strings, is safe for
  every hash builder. `FzHashMap` is safe too, but can keep and find an entry that a later one with an equal key should have replaced.
* C68: `get_disjoint_mut` keeps raw pointers from one `get_mut(&mut self)` while calling the next, and turns them into references at the
  end. Under Stacked Borrows, Miri's default, that is undefined behaviour as soon as two keys are found (with inline storage, and in scanned and hashed maps, even if
  the second key is not found); under Tree Borrows it is not. `frozen-collections/tests/common/map_testing.rs` L70 excludes exactly this call from Miri runs.
* C69: `SymmetricDifference` prints the `Chain` it is made of, and `ValuesMut` and `IntoValues` print keys.
* C23: in the middle of iterating overlapping sets, the lower bound of `Union::size_hint` can exceed the number of items to come.
* C63: on 32-bit targets the same happens for `i32::MIN` with `i32::MAX` (or `u32` 0 with `u32::MAX`), and on 16-bit ones for `i16`/`u16`.
* C27: keys spanning all of `u64` overflow the scalar analyzer (panic in debug builds, wrong layout in release builds).
* C38: macros with run-time keys panic on duplicates, in small and in ordered collections, where literal keys take the last.
* C43: `FzStringMap`/`FzStringSet` cannot be deserialized from formats that do not lend their strings, because `&str` is requested.
* C48: `FzScalarMap` with an `Ord` that disagrees with the index loses keys.
  C88 says when: only if the indices fill a range. With gaps the map is right or construction panics.
  `SparseScalarLookupMap::new`, used directly in a release build, also loses keys in descending order that are almost 2^64 apart: the
  subtraction wraps around to a small table.
* C52: a `Scalar` whose index changes between calls makes a dense map read out of range; `Scalar` is a safe trait.
* C74: the same in `FzScalarMap` through its public constructor, and it is the only way: every other constructor yields a map that no trait
  implementation, stateful or panicking, can send out of range. Reading `index` once per key would close it.
* C75: the `new_raw` constructors are safe functions that can be given arrays leading out of range; they are public so that macros can call them.
* C77: `CollectionMagnitude` is a public safe trait on whose honesty unchecked accesses rely: a `MAX_CAPACITY` one too large for the type makes
  a lookup read out of range (`try_from(..).unwrap_or(ZERO)` in `HashTable::new` turns the failed conversion into 0).
* C78: the same with a `Clone` of the magnitude that disagrees with its `Copy`: the derived `Clone` of the slots calls it.
* C91: `DeduppedVec::using_hash` keeps the indices to be dropped in a vector, not in a hash set as its siblings do, so that repeated keys make freezing
  (and deserializing) a `FzHashMap` or `FzHashSet` take time quadratic in the number of entries.
* C56: deserialization passes the size hint to `Vec::with_capacity` unchecked and panics if it is absurd.
* C59: for a 32-bit target, dense and sparse macros over `isize` keys print 64-bit bounds that do not fit `usize` there. If rustc
  truncated them instead of rejecting them, keys would be lost.
* C64: string and hashed macros fix the layout of their tables with the build machine's `foldhash::FixedState`. A target on which it
  computes other hash codes loses keys silently. Whether there is one depends on foldhash, which is not in this sandbox; its
  documentation promises no stability across platforms as far as we know, and its use of native-endian reads and of the pointer width
  would make 32-bit and big-endian targets such.
* C61: in the typed long form, unsuffixed literals are printed as `i32` whatever type is declared; string keys that are not all
  literals need the declared type `Box<str>` from four entries on, and their own type below; statics with literal keys reject values
  that are not constants, statics with other keys accept them.
* C66: `CollectionEmitter` reports contradictory options as errors, but panics on a symbol or alias name that is not an identifier, and
  prints code that cannot be parsed if the name is a keyword.
* Not stated as properties: `get_mut` of the sparse maps (`maps/decl_macros.rs` L613) lacks the `pub` that its siblings have, so it is reachable only
  through the `MapQuery` trait; hashed and ordered macros accept a
  mixture of integer and string literals (as string expressions, so that rustc reports the error); char, byte and float literals are
  rejected as keys in every macro.
