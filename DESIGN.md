# Formal model of protojit

Rocq/Coq 8.16.1, files in `rocq/theories` (logical name `Verif`). Build: `coq_makefile -f _CoqProject -o
Makefile && make -j4` in `rocq`, 18 minutes on 4 cores; the largest file, `AnyFieldDemo`, takes 6 minutes and 4.8 GB. Paths below are relative to /repo/pj.

## What is modelled

| files | code |
| --- | --- |
| `Base` | 64-bit wrapping arithmetic (util.hpp, arch_base.hpp), memory as `Z -> option byte`; `None` is undefined or poisoned; little-endian loads and stores |
| `Types` | type tree with byte layout (types.hpp): int, float, unit, struct, inline and outline variant, array, vector |
| `Transcode` | what the generated code does: generate_ir.cpp, sizing.cpp and the lowering of llvm_gen2.cpp in one interpreter `xc` from source type to target type, for raw (encode), bounded (decode) and dummy (size, round_up) buffers. Outcomes `Ok`, `Throw`, `UB` (undefined read, violated assume, table overrun), `Stuck` (generation stops) |
| `IR` | the operations generate_ir.cpp builds, function by function, and the meaning llvm_gen2.cpp gives to each; functions found by key and called |
| `Sizing` | sizing.cpp on these operations |
| `ApiOps` | encode, decode and size through the operations |
| `Share` | the table of generated functions of one module: FnKey, getOrCreateFn and cached_fns_ of generate_ir.cpp, findOrCreateConvertedFn of sizing.cpp |
| `Gen` | when generate_ir.cpp succeeds, for all paths of the lowering at once |
| `Api` | encode, size and decode functions: prologue, handler call, result (generate_ir.cpp l.898-1058) |
| `Plan` | plan.cpp, convert_internal.cpp, variant_outlining.cpp, vector_hoisting.cpp, wire_layout.cpp, tag width |
| `Nominal` | the same passes with types shared by name and edited in place; the assertions of types.cpp l.28-32 |
| `Framing` | context.cpp getProtoSize / encodeProto / decodeProto blob framing |
| `Parse` | decisions of parse.cpp and validate.cpp: tags, defaults, name lookup, handler paths, validation; path text (type_support) |
| `BinCompat` | types.cpp isBinaryCompatible |
| `Reflect` | reflect.cpp reflect / unreflect / reflectableTypeFor, any.hpp accessors |
| `AnyField` | receivers with `pj::Any` in fields, terms of variants and elements of arrays and vectors: getOrCreateReflectFn and DefaultOpLowering of generate_ir.cpp, ReflectOpLowering of llvm_gen2.cpp; the constants with the type descriptions lie at addresses given by a parameter and are not bytes of the modelled memory |
| `Cpp` | sourcegen.cpp classes and the BuildPJType templates, Itanium C++ ABI |
| `Host` | span.hpp, offset_span.hpp, the loop of pjcat.cpp |
| `Effects` | side_effect_analysis.cpp and the lowering of calls, throws, catches, callbacks |
| `Copies` | copy_coalescing.cpp |
| `Flat` | the straight-line code generate_ir.cpp and llvm_gen2.cpp give for structs of numbers once everything is inlined, as the block copy_coalescing.cpp gets; what LLVM's own passes and copy_extending.cpp do to it before is left out |
| `Extending` | copy_extending.cpp, isSafeToRead of llvm_utils.cpp; LLVM's analyses are parameters assumed right about the executions considered (`ExtendSpec.right`) |
| `Classes` | addProtocol, addPortal, addPrecompilation of sourcegen.cpp, decodeScopedName and the order of main in pjc.cpp, the path arguments of context.cpp; of C++ and MLIR only that names in one scope differ |
| `Grammar` | the grammar rules of parse.cpp, from characters to declarations |
| `Elab` | the actions of parse.cpp on the declarations: types, specifications, portals, imports |
| `Header` | the header of `pjc --gen-proto`: builders of sourcegen.cpp in the wire domain, PJCreate... of runtime.cpp |
| `Imports` | imports and scopes of parse.cpp over a set of files, the import directories of pjc.cpp |

Specification files (no reference to the generated code): `Spec` (values, `rep` = memory holds a value of a
type, `convt` = conversion by name as a function, `advance`/`space` = bytes needed), `Claims` (vocabulary of
the statements: `gets`, `deliver`, `planned`, ...), `Check` and `Demo` (a computable checker for `rep` and a
concrete schema, object and message). `Cases`, `Cases2`, `Cases3` and the `*Demo` files apply the theorems to
concrete cases, which shows that their hypotheses can be met. Everything else is proofs. Every theorem of a property stands in a
`Prop*.v` file, proved by `exact`, with `Print Assumptions` below.

Not modelled: the PEGTL library itself (its rules are given their documented meaning), the text of the generated C++ (only the layout it leads to, and the statements of portal classes), LLVM's own
optimiser and code generator, MLIR pass mechanics (rewriter, dialect conversion), JIT symbol handling, gdb.cpp, pjc.cpp
command line, threads (the API is used by one thread at a time).

## Modelling choices and simplifications

* Types are trees. Nominal types edited in place by a pass are covered by letting the hoisting pass choose, for
  every occurrence of a variant, whether it is changed (`plan_where sel`); the theorems hold for every choice.
  `Nominal` models the in-place edits themselves and `nplan_planned` shows that they are one of these choices
  unless the struct holding the outlined variant is used twice (C41).
* Addresses are unbounded integers in the frame parts and wrap modulo 2^64 where the code computes them. The
  properties assume messages shorter than 2^63 bytes and objects that do not wrap around the address space
  (`arena`, `clear_of`).
* The generated LLVM code uses naturally aligned loads on packed data. The model gives unaligned accesses
  their x86 meaning.
* Float conversion is a parameter `fconv`: every theorem holds for all of them.
* Loops over vectors are structurally recursive on the loaded count; recursion of `xc` is on the target type.
* `schema t` collects what the parser and the validation guarantee, plus restrictions the theorems need:
  `lay_ok` (ranges of widths and tags, distinct tags), `room` (hoisting can still number its new terms),
  `names_ok`, `plain` (distinct names), `no_outline`, `fresh_ty` (not planned yet), `flat` (a variant without
  data has plain unit terms), `hints_ok` (min <= max), `calm` (the default term has no hinted vector: without it
  code generation fails, C42_refuted). `host t` adds `wf`: fields and terms lie inside their type and do not
  overlap, as C++ guarantees; `Cpp` proves it for the generated classes.

## Trusted base

* Coq's kernel (checked again with `coqchk`).
* Assumptions: `Print Assumptions` answers "Closed under the global context" for every theorem in the
  `Prop*.v` files; no axiom of the standard library is used.
* The reading of the C++ source in the model files. Each definition cites the lines it renders. The model was
  not extracted or run against the C++ program: the sandbox has none of its dependencies.
* Assumptions of the claims themselves are hypotheses of the theorems.

`seeded/LOG.jsonl` lists edits of the model that a programmer could have made by mistake and the theorems that
stopped proving.

## Properties

* **C01 Encode then decode gives the object back** (proved). Corollary of the refinement theorem `xc_ok` (encode) and its decode twin, joined by `Round`: the message may be moved, and any memory holding its bytes will do. `C01_round_trip`
* **C02 Decoding into a different schema follows names** (proved). Same, with `gets`, an inductive relation giving the conversion rules by name. `C02_rules_determine`: the rules leave no choice. `C02_by_name`, `C02_rules_determine`, `C02_unknown_ignored`
* **C03 size() is exactly what encode() uses** (proved). `xc` with the dummy buffer advances as far as the encode run (`advance`, a function of the value). `C03_size_exact`
* **C04 round_up size never under-estimates** (partial). `infl` fills up every vector the sizing pass treats as full. `round_size`: the rounded-up size is the length of the filled-up value; `grow_ok` (`Grow.v`): longer vectors never make a message shorter, for any planned type (alignment gaps included). `C04_round_up_partial`, `C04_filled_partial`, `C04_refuted` — proved for every object whose filled-up form fits 63 bits; false otherwise: the rounded-up size wraps around
* **C05 encode writes only inside the message** (proved). Frame part of `xc_ok`: bytes outside the message keep their value. `C05_encode_footprint`
* **C06 decode writes only the destination and the decode buffer** (partial). Frame part of `xc_ok` for decode; `only_needed` says how much of the buffer is used. `C06_decode_footprint_partial`, `C06_only_needed_partial`, `C06_refuted` — proved for receivers whose vector maximum is not below what the sender keeps inside the head; false otherwise
* **C07 decode fails exactly when the buffer is too small** (proved). `space`, the bytes a value needs, is defined on values; decode succeeds iff the buffer has that many. `C07_threshold`
* **C08 The source is never modified** (proved). Frame part of `xc_ok` with disjoint source. `C08_encode_source_kept`, `C08_decode_message_kept`
* **C09 A failed decode calls no handler** (partial). Invariant on the callback slot along the decode run. `C09_last_partial`, `C09_refuted` — no handler runs if nothing decoded after the handlers can run out of room; false otherwise: the recorded handler runs after the failure
* **C10 Handler dispatch** (proved). Handlers are found by walking the value along the handler paths (`Handlers`). `C10_dispatch`
* **C11 Encoding with a known source term is only an optimisation** (proved). `PathEq`: `xc` with any source path gives the same result as with none. `C11_path_same`
* **C12 Integer conversion** (proved). Arithmetic for all widths and signs. `C12_int`, `C12_nested`
* **C13 Sequence truncation and padding** (proved). Rules `resize`/`cut` on lists. `C13_vector`, `C13_array`
* **C14 Unknown variant terms become the default term** (partial). `gets` rules for unknown terms and unknown tags. `C14_unit_default_partial`, `C14_refuted` — proved when the default term has no payload; false otherwise
* **C15 Enum conversion** (partial). Separate model of the enum table in `Enum`, tied to `xc`. `C15_by_name_partial`, `C15_unknown_tag_partial`, `C15_refuted`, `C15_table_refuted` — proved when tags stay, or are below 128 with default tag 0, or are sparse; false otherwise
* **C16 Variant dispatch selects the term named by the tag** (partial). Model of the dispatch in `Transcode` (`dispatch`). `C16_dispatch_partial`, `C16_refuted` — true for tags below 2^63, false above
* **C17 Wire layout is packed, disjoint and in bounds** (proved). Induction over schemas (`Layouts`). `C17_layout`
* **C18 Tag width suffices** (partial). Arithmetic on `tag_width`. `C18_tag_width_partial`, `C18_refuted` — true except for the tag 2^64-1
* **C19 Vector hoisting is exact** (proved). `PlanHoist`: every value is accepted by exactly one of the split terms. `C19_hoisting`
* **C20 Outlined variant data starts right after the head** (proved). Invariant of the offset pass, then the run of encode. `C20_outlined`
* **C21 Choice of tag path and inline hints is invisible to the reader** (proved). `PlanConv`: planning keeps what a type can hold, then C01 twice. `C21_plan_invisible`
* **C22 Protocol blob framing** (proved). `Framing`: byte-level model of encodeProto/decodeProto. `C22_framing`, `C22_round_trip`
* **C23 Newest known version wins** (partial). Same model, list of versions. `C23_newest_partial`, `C23_refuted` — true if the known versions come first; decodeProto gives up at the first unknown version, so it is false otherwise
* **C24 Reflect then unreflect gives the type back** (partial). `Reflect`: pool of nodes with relative indices; induction over types. `C24_round_trip_partial`, `C24_same_decoder`, `C24_refuted` — the type comes back unless a vector has an inline hint, which is lost; decoders built from the type that comes back behave the same in every case
* **C25 Binary compatibility answers are right** (partial). Induction over pairs of types; meaning = equality of `rep`. `C25_self`, `C25_meaning_partial`, `C25_refuted` — true if units meet units and same-tag terms have the same payload type; the code compares each payload with itself, so it is false otherwise
* **C26 Tag assignment in the schema parser** (proved). `Parse`: list model of the parser actions. `C26_tags`, `C26_rejects`
* **C27 Name resolution is innermost-first** (proved). `Parse`: namespaces are lists of names. `C27_innermost`, `C27_fails`, `C27_defined_once`
* **C28 Path text round trip** (proved). `Parse`: strings of Coq characters. `C28_round_trip`, `C28_injective`, `C28_blanks_refuted` — for names without dots or blanks; a path written with blanks around the dots is read as different names
* **C29 Accepted schemas have unique names** (proved). `Parse`: validation functions. `C29_struct`, `C29_vector`, `C26_rejects`
* **C30 Any accessors report the encoded value** (partial). `Reflect`: accessors read the pool and the object; related to `rep` (`AnyFacts`). Where planning splits terms, the type decoded into has two terms of a name; `AnySplit` shows that it transcodes as the type with only the first of each (`firsts_xc`), which in turn agrees with the schema (`hoist_where_firsts`). Positive for integers of 1, 2, 4, 8 bytes, refuted for 24 bits; `C30_files`: schema files have only the former. Simplified: terms are sorted stably by name, where types.hpp l.437 uses std::sort (libstdc++ is stable up to 16 elements, not beyond); another order of two terms of one name would make AnyVariant report the tag planning added. `C30_any_partial`, `C30_files`, `C30_refuted` — proved for every schema whose integers have 1, 2, 4 or 8 bytes, with or without terms that planning splits; every type of an accepted schema file is such; false for other widths made through PJCreateIntType. The model sorts terms stably by name, as std::sort does for up to 16 terms: with more, the tag reported for a split term may be its second one
* **C31 Copy merging does not change the result** (proved). `Copies`: invariant of the sorted piece list; byte-level semantics of the emitted memcpys. `C31_set`, `C31_reads` — Every sequence of copies the pass accepts into one set, any memory, any answer of isSafeToRead. The pass around the set is C45.
* **C32 Host array elements are where C++ puts them** (partial). `Cpp`: Itanium layout of the generated classes, `holds` says what a C++ object contains; related to `rep` of the built type. `C32_host_described_partial`, `C32_round_trip_partial`, `C32_refuted` — Proved for every accepted schema without arrays of integers wider than one byte: the generated host type is well formed and describes exactly the C++ object, hence encode and decode move C++ objects. False for arrays of wider integers (C32_refuted): sizeof the empty wrapper class is used as stride.
* **C33 span never exceeds its declared maximum** (proved). Invariant over operation histories. `C33_span_max` — Every history of span constructions, conversions, copies and assignments; the template operator= does not compile and is left out.
* **C34 offset_span copies refer to the same elements** (proved). Arithmetic modulo 2^64 and memory form. `C34_copies`, `C34_copy_read` — Any chain of copies at any addresses modulo 2^64, and the memory form: the library reads the copy as it read the original.
* **C35 pjcat's decode retry passes a buffer as large as it says** (partial). Induction over the retry history. `C35_before_retry_partial`, `C35_after_retry_wrong`, `C35_refuted` — Holds until the first failed decode; after it every call announces more than the array has (the new buffer is a shadowing local).
* **C36 Decoding arbitrary bytes is safe** (partial). Decode of arbitrary bytes: frame and bounds only (`Safe`). `C36_bounded_partial`, `C36_flat_partial`, `C36_refuted` — writes stay in place if every receiver vector has a maximum; for receivers without vectors decode succeeds and reads and writes in place; false for unbounded vectors: a length of 2^64-1 wraps the buffer check
* **C37 Every schema change in the allowed set still generates code** (partial). `Gen`: when generation succeeds. `C37_additions_partial`, `C37_sender_partial`, `C37_refuted`, `C37_encode_refuted` — decoders when default terms have no payload, senders that have the hinted vectors, and the tag path variant unless its default has no payload; false otherwise
* **C38 Default values of outlined variants** (partial). `idle` (`Spec.v`): every outlined variant in the type has a default term without payload; then the buffer the default drops is the one it got. `Rests.v` reads the default off the delivered value. False with a payload: computed case. `C38_resting_partial`, `C38_refuted` — proved when the default term has no payload; false otherwise
* **C39 Allocation and alignment in the buffer** (proved). Arithmetic on `allocate`, `align`. `C39_allocate`, `C39_align`, `C39_disjoint`
* **C40 A failure anywhere stops decoding everywhere** (proved). `Effects`: closure = least fixed point; simulation with a semantics by exceptions. `C40_closure`, `C40_stops` — All modules of the shape generate_ir.cpp produces (a catch makes one call and does not itself allocate; nothing fails inside a size operation), any control flow, any failing allocations. A catch goes on to its InvokeCallback after a failed call, which is where C09_refuted comes from.
* **C41 Planning a type used in several places** (partial). `Nominal`: a naming of the positions of the tree; an edit applies to all positions of a name. Refines to `plan_where`. `C41_shared_partial`, `C41_planned_partial`, `C41_refuted` — Any sharing of named types and any tag path, as long as the struct that holds the outlined variant is used once. Otherwise false: outlining edits that struct everywhere, so two outlined variants share one term offset; the assertion in types.cpp fails, and without assertions encode writes past the size it announced.
* **C42 Every accepted schema compiles** (partial). `Gen`: generation succeeds for planned protocols (`GenFacts`). `C42_compiles_partial`, `C42_refuted` — proved when default terms have no hinted vector; false otherwise
* **C43 Sending under a protocol planned from another schema** (partial). `serves` (`Other.v`) says what the sender must have. `plan_conv`: the planned type converts values as the schema does; `gen_send`: code generation succeeds; then encode and decode as for C02. `C43_by_name_partial`, `C43_relay_partial`, `C37_encode_refuted`, `C38_refuted` — proved when the sender has the hinted vectors and either has the variant on the tag path or its default term has no payload; false otherwise
* **C44 Accepted handler paths lead to a term** (proved). `Parse`: accepted handler paths lead to terms. `C44_handlers_fit`
* **C45 The copy-merging pass preserves a block** (partial). `Copies` is the pass on one block; sets of copies with their pieces. A simulation moves every pending set behind the instructions it is moved past; `quiet` is what this needs, `trusted` a simpler condition that implies it. `C45_block_partial`, `C45_finer_partial`, `C45_finer_covers`, `C45_refuted`, `C45_between_refuted` — Holds when no other instruction of the block that the pass moves copies behind writes a byte these copies write, poisons they may grow into included. Otherwise false: a default stored into a freshly poisoned struct is overwritten by the copy before it, which has grown.
* **C46 Importing schema files** (partial). `Imports.v` parses files with a pending set and a table of names. `expands` replaces imports by what they import; equivalence by induction on the height of that tree, termination by the number of files not pending. `C46_ends`, `C46_accepts_partial`, `C46_cycle`, `C46_twice`, `C46_refuted`, `C46_alone_refuted` — what is accepted is characterised exactly; false that a file may be imported along two routes, and that an accepted import is acceptable by itself
* **C47 Search for imported files** (partial). `find_import` on the sorted set of directories. `C47_only_partial`, `C47_missing`, `C47_refuted` — proved when one directory has the file; false otherwise: the directory last in alphabetical order wins
* **C48 Protocol headers** (partial). `Header` writes the token list of sourcegen.cpp and reads it back with the functions of runtime.cpp; `HeaderFacts` proves by induction over the definitions that each specialisation is written after those it uses and builds the type it names; `Deaf` proves that decoders do not read term attributes. `C48_same_partial`, `C48_decoder_partial`, `C48_encoder_refuted`, `C48_float_refuted`, `C48_twice_refuted` — Without floats, without split terms and with one definition per name the header builds the very protocol; with split terms decoders are still the same. Refuted: a float makes the header fail to compile, so does a variant used both inline and outlined; split terms lose their attributes, so the encoder never uses the inline form.
* **C49 Schema files are read as written** (partial). `Grammar` gives every rule of parse.cpp the meaning PEGTL gives it (ordered choice, greedy repetition, `must`). `GrammarSpec` lists the tokens of every declaration and the texts that hold them. `GrammarFacts`: one lemma per rule, by induction on repetitions and on the nesting of spaces. `C49_read_partial`, `C49_legible`, `C49_shadowed`, `C49_end_comment_refuted`, `C49_blank_refuted`, `C49_literal_end_refuted` — Proved for every list of declarations and every spacing and commenting of it, with exact exceptions: names that start like a built-in type can be declared but not referred to, a comment must end with a line end, a file of blanks only is rejected unless empty, and nothing may follow a language text at the end of a file. The exceptions are proved to be rejected.
* **C50 From schema files to types** (partial). `Elab` runs the actions of parse.cpp on the declarations, with imports. `ElabSpec.declares` says what a declaration means as an inductive relation. `ElabFacts`: invariant over declarations, spaces and files; `ElabClaims`: accepted and usable types are schemas, so C32 applies. `C50_declared`, `C50_all`, `C50_sane`, `C50_specs`, `C50_round_trip_partial`, `C50_layout`, `C50_depth`, `C50_defined_partial`, `C50_number_refuted`, `C50_transport_refuted` — Files to types for all sources; false for numbers from 2^63 on and for accepted types that cannot be transported (both refuted).
* **C51 Portals are what the files declare** (partial). Invariant over all declarations (`PortalFacts.file_keeps`): every portal has functions and protocol of declarations of its name. `C51_portals_partial`, `C51_single_partial`, `C51_merged_refuted`, `C51_new_name_refuted` — Proved for portals declared once; refuted for portals of one name in two files and for specifications in nested spaces of one name.
* **C52 Longer copies change nothing** (partial). `Extending`: control flow graph, the search for the frontier with its memo table, the rewriting. Executions with undefined bytes; a simulation shows refinement. Between the last execution of the poison and an extended copy nothing stores to the bytes the copy gains (dominance, SSA and `alone`, as paths). The search is proved exact by induction on its fuel. `C52_same_partial`, `C52_frontier`, `C52_read`, `C52_branch_refuted`, `C52_loop_refuted` — Proved for functions in which no other store to the bytes gained leads to the copy without a new poison; false otherwise, for a store on one of two paths and for a copy in a loop.
* **C53 Generated classes run the functions that were declared** (partial). `Classes`: the statements of the generated C++ (adds, gets, members, methods, symbols, plan variables) and their effect on a context. `ClassFacts`: paths that were read from text survive printing and reading; distinct names make every table lookup hit its own entry (induction over protocols and precompilations with the set of names already planned); splitting at underscores is injective on names without them. `ClassDemo` ties this to accepted files. `C53_portal_partial`, `C53_precompiled_partial`, `C53_class`, `C53_distinct`, `C53_option`, `C53_symbols_refuted`, `C53_class_refuted`, `C53_head_refuted` — Proved for every accepted file whose generated names differ, and that they differ when no name has an underscore (and no function of a portal is named after a member of its class). False in general: symbols of precompiled functions joined by underscores collide, a function named ctx, proto or portal gives a class that does not compile, and a specification over a type that is not a class makes the generator fail.
* **C54 The generated operations do what the types say, through calls** (proved). `IR` builds the operations; `IRFacts`/`IRRun` prove by induction on the nesting of calls that running them is `xc` (`top_ok`), loop by loop and block by block; then C01, C02 and C05 carry over. `C54_same`, `C54_delivers`, `C54_round_trip`
* **C55 The size function left by the sizing pass computes the size of the message** (partial). `Sizing` marks and sweeps. `SizingFacts`: the marks are closed under operands, and the swept code agrees with the unswept on every marked value (simulation over blocks, loops and branches); `SizingRun`: with calls, by induction on nesting; then C03 and C04 carry over. `C55_exact`, `C55_round_up_partial`, `C55_round_up_refuted` — exact sizes proved; with round_up the size is right and nothing is written, but references of elements that are not there are read
* **C56 Structs of numbers survive the merging of copies** (partial). `xc_lower`: on structs of numbers `xc` is the straight-line code `lower`; `lower_shape`: its targets are apart or nested; `block_quiet`: if it is orderly, C45_finer applies; then encode and decode carry over. A type and its layout lower to copies only, so the round trip needs no condition. `C56_encode_same`, `C56_decode_same`, `C56_encode`, `C56_decode_partial`, `C56_round_trip`, `C56_noalias`, `C56_decode_refuted` — Proved for encode and for decode under the same schema. Under another schema proved when the code is orderly (no struct whose first field is stored, not copied, behind a copied field), and refuted otherwise. LLVM passes that run in between are not modelled.
* **C57 A receiver's any fields hold what was sent** (partial). `AnyField.xh` decodes into structs, variants, arrays and vectors of plain types and `any`s. `wired` (`AnyFieldFacts`) collects what planning guarantees about a part of the wire type and is shown to pass to fields, terms and elements; `xh_right`, by induction on the receiver, that every field, term and element lands in the right place, that the data of an `any` stays where it is while later fields are decoded, and that it either has room or stops having changed nothing but object and buffer; the `any` itself as for C30. `C57_any_fields_partial`, `C57_refuted`, `C57_array_refuted`, `C57_default_refuted` — Receivers of structs, variants, arrays and vectors, nested, with any fields anywhere in them; with too little room the decode fails and touches nothing but object and buffer. Missing: sender's terms that planning split and that fill a term with an any, integers whose width is not 1, 2, 4 or 8 bytes. False, and refuted: that every sender gets a decoder, namely not with an any it lacks, not with an array of any, not with a variant whose default term is an any.
* **C58 Encoders and decoders compiled together do not mix up their functions** (proved). `Share`: `generate` makes the function of every key still to be lowered unless the table has it, and adds the keys it calls. `gen_calls`: a function calls only functions for parts of its target, so that it ends (`generate_ends`); `generate_inv`: the table has each key once, its function, and all functions called; `run_body_ext`: code runs the same if the functions it calls do; so running out of the table is running with all functions there are (`run_mod_ok`), which is C54; what the sizing pass leaves calls no more than before (`size_calls`). `C58_module_complete`, `C58_same`, `C58_delivers`, `C58_dispatch`, `C58_paths` — The table of functions of a module (FnKey, getOrCreateFn, cached_fns_) over the operations of C54, and the size functions made from it (C55): making the functions always ends, no key is made twice, every function called is there, and every encoder, decoder and size function asked for does what it does alone, for any set of them. Not part: functions for any targets; named types are compared as trees.
* **C59 A message depends on the object and on nothing else** (partial). `near i m0 m`: `m` is `m0` with undefined bytes as in `i`. Since `xc` stops at an undefined byte, it does the same on both (`xc_near`, induction on the target, loop by loop). Run it on the memory with the object only: the bytes defined at the end are the decided ones; `rep_defined`: a value is held by defined bytes, so C02 applies to them. `filled_all`: on the wire a value of a solid schema has every byte (fields follow each other, C17); `filled_same`: two places that hold the same such value hold the same bytes. No seeded edit was run to the end against these theorems. `C59_message_partial`, `C59_solid_partial`, `C59_equal_partial`, `C59_received_partial`, `C59_refuted` — Proved: for all memories that agree on the object's bytes, encode succeeds with the same size and writes the same decided bytes; every other byte of the message is undefined or what the buffer held before; any receiver gets what was sent from the decided bytes alone. Without vectors and with variants whose terms have one size, every byte is decided, and equal objects at any addresses give equal messages. The same for decode: return value, handler and decided bytes depend on the message only, whether it succeeds or fails. False as stated (C59_refuted): a variant with a shorter term leaves the rest of its room as it was in the buffer, so two encodings of one object differ and old contents are sent. With vectors, object and buffer stay at the same addresses in both runs.

## Defects found in the code

Each is a proved `_refuted` theorem unless noted.

1. isBinaryCompatible compares a term's payload type with itself and lets unit match anything (C25).
2. A receiver vector whose maximum is below what the sender keeps inline is overrun (C06).
3. Enum conversion copies tags when they look alike, and sign-extends its table (C15).
4. A defaulted outlined variant in an encoder is not allocated where the reader looks (C38).
5. Default terms with payload: generation fails or the default is wrong (C14, C37, C42).
6. A length near 2^64 wraps the buffer check of decode (C36).
7. After a failed decode the recorded handler still runs (C09).
8. Match dispatch compares tags as signed (C16); tag 2^64-1 has width 0 (C18).
9. decodeProto stops at the first version it does not know (C23).
10. Paths written with blanks name other fields (C28).
11. pjcat's grown buffer is a shadowing local (C35); host arrays of integers have stride 1 (C32).
12. unreflect loses a vector's inline hint (C24).
13. The copy-merging pass moves a copy past a store to the bytes it may grow into (C45).
14. Outlining a variant inside a struct that is used twice gives two outlined variants with one offset (C41).
15. The rounded-up size wraps around for large bounded vectors (C04).
16. A file imported along two routes is rejected (C46); the last import directory in alphabetical order wins (C47).
17. Protocol headers: a float leaves a parenthesis open, split terms lose their attributes, a variant that is both
    inline and outlined is written under one name (C48).
18. A type named like a built-in one (`int8x`), a comment at the end of the file, a file of blanks and text after a
    `language` block at the end of the file are refused (C49).
19. Numbers from 2^63 on are used uninitialised (C50); vectors of empty structs and `[:0]` are accepted but cannot be
    transported (C50).
20. A portal declared in two files gets the protocol of one and the functions of the other; a specification in
    nested spaces of one name is refused (C51).
21. The copy-extending pass overwrites a store made on one of two paths from the poison to the copy, and the bytes
    a longer copy left in an earlier round of a loop (C52). The functions of the refutations are written by hand;
    whether the generator emits any of that shape is not known: nothing was run.
22. Symbols of precompiled functions are names joined by underscores and collide (`A`/`b_c` and `A_b`/`c`); a
    portal function named `ctx`, `proto` or `portal` gives a class with two members of one name; a specification
    over a type that is not a struct or variant is accepted, and the generator's cast fails (C53). What MLIR
    does with a symbol defined twice is not modelled: the theorem says only that the symbols are equal.
23. The comment of sizing.cpp (l.84-88) says that rounding up lengths leads to no invalid reads. Where the elements are
    vectors of structs, arrays or vectors, the address of an element is still computed in order to call its size
    function, and this reads a reference behind the end of the outer vector (C55).
24. A receiver whose struct holds, behind copied fields, a struct that starts with a field the sender lacks finds
    bytes of the message in that field instead of 0: the copy before it grows over the default (C56, the case of 13
    for concrete schemas). Shown on the code as generated; LLVM's own passes run before the merging and might
    change its shape.
25. A receiver with a field of type `any` that the sender does not have gets no decoder, while a field of every
    other type gets its default: DefaultOpLowering (generate_ir.cpp l.1158-1192) has no case for `any` (C57).
26. An array of `any` gets no decoder, however many elements the sender's array has: the loop that fills the rest
    with defaults is generated even when no rest is left (generate_ir.cpp l.498-566) (C57).
27. A variant whose default term is an `any` gets no decoder, even for a sender with the same terms: the block
    for unknown tags is always generated (generate_ir.cpp l.394-496) (C57).
28. An inline variant whose current term is shorter than the longest leaves the rest of its room in the message as it
    was in the caller's buffer, so old contents of the buffer are sent and two encodings of one object may differ
    (C59). Shown on the code as generated; a copy that LLVM's or the project's passes widen may put other bytes there.
