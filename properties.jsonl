{"id": "C01", "title": "Encode then decode gives the object back", "statement": "Plan a protocol from a schema, encode a host object of that schema with it, then decode the message into the same host type with a large enough decode buffer: the decoded object holds exactly the same logical value (all integers, floats, variant terms, array and vector elements).", "quantifier": "every schema built from ints, floats, units, structs, inline variants, arrays and vectors (no 'any'), every choice of tag path, every object value, every placement of the object, message and decode buffer that does not overlap", "why_tests_cant": "The schema and value space is infinite and recursive; a test covers one schema and one value.", "anchors": ["pj/generate_ir.cpp: getOrCreate*TranscodeFn, transcodeTerm, transcodeInlineVector, transcodeOutlineVector", "pj/llvm_gen2.cpp: *OpLowering", "pj/plan.cpp: plan_protocol"]}
{"id": "C02", "title": "Decoding into a different schema follows names", "statement": "Decoding a message into a host type of another schema gives, field by field, the sender's field of the same name (converted), or the default value when the sender has none; sender fields unknown to the receiver are ignored and change nothing else.", "quantifier": "every pair of compatible schemas and every encoded value", "why_tests_cant": "Schema pairs are unbounded; each test fixes one pair.", "anchors": ["pj/generate_ir.cpp: getOrCreateStructTranscodeFn, DefaultOpLowering"]}
{"id": "C03", "title": "size() is exactly what encode() uses", "statement": "For a planned protocol the size function returns the number of bytes encode needs: encode writes nothing at or after buf+size and its outline data ends exactly there.", "quantifier": "every schema, tag path, source type, object value, buffer address", "why_tests_cant": "Off-by-a-few errors show up only for particular combinations of inline, partial and outline vectors.", "anchors": ["pj/sizing.cpp", "pj/generate_ir.cpp: SizeFunctionLowering", "pj/llvm_gen2.cpp: SizeOpLowering, AllocateOpLowering"]}
{"id": "C04", "title": "round_up size never under-estimates", "statement": "A size function declared round_up returns at least the exact size of every object, for the same protocol.", "quantifier": "every schema and every object value", "why_tests_cant": "Needs a comparison over all vector lengths and all term choices.", "anchors": ["pj/sizing.cpp: LengthOp replacement"]}
{"id": "C05", "title": "encode writes only inside the message", "statement": "encode(obj, buf) modifies no byte outside [buf, buf + size(obj)).", "quantifier": "every schema, value, address", "why_tests_cant": "Memory safety for all inputs.", "anchors": ["pj/generate_ir.cpp", "pj/llvm_gen2.cpp"]}
{"id": "C06", "title": "decode writes only the destination and the decode buffer", "statement": "Decoding a well-formed message modifies no byte outside the destination object and the given decode buffer, whether it succeeds or fails.", "quantifier": "every schema pair, every well-formed message, every buffer size including too small", "why_tests_cant": "Memory safety for all inputs and all buffer sizes.", "anchors": ["pj/llvm_gen2.cpp: AllocateOpLowering", "pj/generate_ir.cpp"]}
{"id": "C07", "title": "decode fails exactly when the buffer is too small", "statement": "For a well-formed message there is a threshold computed from the value: decode succeeds iff the decode buffer has at least that many bytes; the returned remaining size is the difference; success does not depend on anything else in the buffer.", "quantifier": "every schema pair, value and buffer size", "why_tests_cant": "Requires all sizes; tests retry upwards until success.", "anchors": ["pj/llvm_gen2.cpp: AllocateOpLowering, ThrowOpLowering, DecodeCatchOpLowering"]}
{"id": "C08", "title": "The source is never modified", "statement": "encode does not modify the source object; decode does not modify the message bytes.", "quantifier": "every input with non-overlapping regions", "why_tests_cant": "Quantifies over every byte of every input.", "anchors": ["pj/generate_ir.cpp", "pj/llvm_gen2.cpp"]}
{"id": "C09", "title": "A failed decode calls no handler", "statement": "When decode runs out of buffer it returns the failure value and no user handler is called.", "quantifier": "every schema, handler set, message and buffer size", "why_tests_cant": "Depends on where in the object the allocation fails relative to the dispatched variant.", "anchors": ["pj/side_effect_analysis.cpp", "pj/llvm_gen2.cpp: CallOpLowering, InvokeCallbackOpLowering, DecodeCatchOpLowering", "pj/ir.td: ThrowOp"]}
{"id": "C10", "title": "Handler dispatch", "statement": "After a successful decode with handlers on terms of one (non-enum) variant, the handler of the term the decoded variant holds is called, once, after decoding has finished; if that term has no handler none is called.", "quantifier": "every variant type, handler set, and message", "why_tests_cant": "All tags, all handler sets.", "anchors": ["pj/generate_ir.cpp: transcodeTerm, getOrCreateVariantTranscodeFn", "pj/llvm_gen2.cpp: SetCallbackOpLowering, InvokeCallbackOpLowering"]}
{"id": "C11", "title": "Encoding with a known source term is only an optimisation", "statement": "An encoder declared with a source path produces the same bytes and the same size as the one without, for every object that holds that term.", "quantifier": "every type, path and object holding the term", "why_tests_cant": "Equality of two generated programs on all inputs.", "anchors": ["pj/generate_ir.cpp: getOrCreateVariantTranscodeFn (path)"]}
{"id": "C12", "title": "Integer conversion", "statement": "Transcoding an integer to another width or signedness yields the value congruent modulo 2^(destination bits); it is unchanged whenever it fits the destination.", "quantifier": "all widths, signs and values", "why_tests_cant": "2^64 values times 144 width/sign pairs.", "anchors": ["pj/llvm_gen2.cpp: TranscodePrimitiveOpLowering"]}
{"id": "C13", "title": "Sequence truncation and padding", "statement": "A vector decoded into a vector with a smaller maximum keeps exactly the first max elements in order; an array decoded into a longer array is padded with defaults, into a shorter one truncated.", "quantifier": "all lengths, element types, inline/partial/outline layouts on both sides", "why_tests_cant": "Layout combinations times lengths.", "anchors": ["pj/generate_ir.cpp: transcodeInlineVector, transcodeOutlineVector, getOrCreateArrayTranscodeFn"]}
{"id": "C14", "title": "Unknown variant terms become the default term", "statement": "A variant value whose term the destination does not know is decoded as the destination's default term with the default payload.", "quantifier": "every variant pair and value", "why_tests_cant": "All term/payload combinations.", "anchors": ["pj/generate_ir.cpp: getOrCreateVariantTranscodeFn"]}
{"id": "C15", "title": "Enum conversion", "statement": "Transcoding an enum maps every term to the term of the same name, and any term or tag the destination does not know to the destination's default term.", "quantifier": "every pair of enums and every source tag", "why_tests_cant": "Depends on tag gaps, table size and tag width.", "anchors": ["pj/llvm_gen2.cpp: CopyTagOpLowering", "pj/generate_ir.cpp: TranscodeOpLowering"]}
{"id": "C16", "title": "Variant dispatch selects the term named by the tag", "statement": "When the tag of a variant equals the tag of a term, the generated switch runs the code generated for that term; otherwise the default code.", "quantifier": "every set of distinct 64-bit tags and every tag value", "why_tests_cant": "2^64 tags; involves two independent sorts.", "anchors": ["pj/generate_ir.cpp: getOrCreateVariantTranscodeFn (blocks sort)", "pj/llvm_gen2.cpp: MatchOpLowering"]}
{"id": "C17", "title": "Wire layout is packed, disjoint and in bounds", "statement": "In every planned protocol the fields of a struct occupy disjoint consecutive byte ranges inside the struct, a variant's payload and tag are disjoint and inside the variant, and every part of a vector header lies inside its header.", "quantifier": "every schema", "why_tests_cant": "All recursive schemas.", "anchors": ["pj/wire_layout.cpp"]}
{"id": "C18", "title": "Tag width suffices", "statement": "The number of bytes reserved for a variant tag can represent every tag of the variant.", "quantifier": "every set of 64-bit tags", "why_tests_cant": "2^64 range; boundary cases 2^8-1, 2^16-1, ..., 2^64-1.", "anchors": ["pj/types.hpp: compute_tag_width"]}
{"id": "C19", "title": "Vector hoisting is exact", "statement": "After hoisting, for every value of a hoisted term exactly one of the split terms is selected, its vectors' bounds accept the value's lengths, tags stay pairwise distinct, and the pass terminates.", "quantifier": "every schema and every combination of vector lengths", "why_tests_cant": "2^k split terms times all lengths.", "anchors": ["pj/vector_hoisting.cpp", "pj/generate_ir.cpp: generateTermCondition"]}
{"id": "C20", "title": "Outlined variant data starts right after the head", "statement": "For a protocol planned with a tag path the outlined variant's tag is stored in the head and its payload begins exactly where the variable-size part of the message begins, for every payload.", "quantifier": "every schema with a tag path", "why_tests_cant": "All nesting depths and sibling layouts.", "anchors": ["pj/variant_outlining.cpp: OutlineVariantOffsetGeneration", "pj/generate_ir.cpp: getOrCreateStructTranscodeFn"]}
{"id": "C21", "title": "Choice of tag path and inline hints is invisible to the reader", "statement": "Two protocols planned from the same schema with different tag paths (or none) or different vector inline hints decode to the same value for the same encoded object.", "quantifier": "every schema, pair of plans, and value", "why_tests_cant": "Equality of two pipelines on all inputs.", "anchors": ["pj/plan.cpp", "pj/variant_outlining.cpp", "pj/vector_hoisting.cpp"]}
{"id": "C22", "title": "Protocol blob framing", "statement": "A protocol description written by encodeProto and read back by decodeProto is the same description, and getProtoSize is exactly the number of bytes written.", "quantifier": "every list of versions and payload bytes", "why_tests_cant": "All payload sizes and version lists.", "anchors": ["pj/context.cpp: getProtoSize, encodeProto, decodeProto"]}
{"id": "C23", "title": "Newest known version wins", "statement": "decodeProto uses the highest version it knows among those in the blob, whatever unknown newer versions follow.", "quantifier": "every blob containing at least one known version", "why_tests_cant": "All version lists.", "anchors": ["pj/context.cpp: decodeProto"]}
{"id": "C24", "title": "Reflect then unreflect gives the type back", "statement": "Describing a protocol as data (reflect) and rebuilding the type from it (unreflect) gives the same type.", "quantifier": "every protocol type", "why_tests_cant": "All recursive types; relative index arithmetic.", "anchors": ["pj/reflect.cpp", "pj/reflect.pj"]}
{"id": "C25", "title": "Binary compatibility answers are right", "statement": "If isBinaryCompatibleWith says yes, both types have the same byte representation (a message valid for one is valid for the other and denotes the same value); a type is compatible with itself.", "quantifier": "every pair of types", "why_tests_cant": "All pairs of recursive types.", "anchors": ["pj/types.cpp: isBinaryCompatibleWith", "pj/types.hpp"]}
{"id": "C26", "title": "Tag assignment in the schema parser", "statement": "Every accepted variant or enum has pairwise distinct tags, keeps the tags written explicitly, and gives an implicit default the tag 0.", "quantifier": "every declaration order and set of explicit tags", "why_tests_cant": "All permutations of explicit/implicit tags including wrap-around at 2^64.", "anchors": ["pj/parse.cpp: handleVariant", "pj/validate.cpp"]}
{"id": "C27", "title": "Name resolution is innermost-first", "statement": "A type reference resolves to the definition in the innermost enclosing namespace that defines it, and fails iff no enclosing namespace does.", "quantifier": "every namespace nesting and definition set", "why_tests_cant": "All scope trees.", "anchors": ["pj/parse.cpp: resolve"]}
{"id": "C28", "title": "Path text round trip", "statement": "Converting a dotted path to text and back gives the same path.", "quantifier": "every list of field names", "why_tests_cant": "All strings, including empty pieces.", "anchors": ["pj/type_support.cpp: PathAttr::fromString, toString"]}
{"id": "C29", "title": "Accepted schemas have unique names", "statement": "Every struct or variant accepted by the parser has pairwise distinct field, term names (and tags); every vector has min <= max; every rejected one violates this.", "quantifier": "every declaration", "why_tests_cant": "All declarations.", "anchors": ["pj/validate.cpp"]}
{"id": "C30", "title": "Any accessors report the encoded value", "statement": "The accessors of 'any' on decoded data return the field names, values, term tag and name, sequence length and elements of the value that was sent.", "quantifier": "every value", "why_tests_cant": "All recursive values.", "anchors": ["pj/include/pj/any.hpp"]}
{"id": "C31", "title": "Copy merging does not change the result", "statement": "Merging adjacent fixed-size copies into wider copies leaves the destination bytes as the individual copies would, on every byte a copy targets.", "quantifier": "every set of copies and memory contents", "why_tests_cant": "All offset/width combinations.", "anchors": ["pj/copy_coalescing.cpp"]}
{"id": "C32", "title": "Host array elements are where C++ puts them", "statement": "Element i of a generated host array type is read and written at byte offset i*sizeof(element).", "quantifier": "every element type and length", "why_tests_cant": "Existing tests only use one-byte elements.", "anchors": ["pj/include/pj/array.hpp: BuildPJType<array>", "pj/sourcegen.cpp: printTypeRef", "pj/llvm_gen2.cpp: ArrayIndexOpLowering"]}
{"id": "C33", "title": "span never exceeds its declared maximum", "statement": "No sequence of successful span constructions and conversions yields a span holding more elements than its declared maximum.", "quantifier": "every sequence of operations and lengths", "why_tests_cant": "All operation histories.", "anchors": ["pj/include/pj/span.hpp"]}
{"id": "C34", "title": "offset_span copies refer to the same elements", "statement": "Copying or assigning an offset_span anywhere in memory leaves it referring to the same address range.", "quantifier": "every address pair", "why_tests_cant": "2^64 addresses, wrap-around.", "anchors": ["pj/include/pj/offset_span.hpp"]}
{"id": "C35", "title": "pjcat's decode retry passes a buffer as large as it says", "statement": "Whenever pjcat calls the decoder, the buffer it passes really has the size it announces.", "quantifier": "every number of retries", "why_tests_cant": "Only shows for messages that need more than 1024 bytes.", "anchors": ["pj/pjcat.cpp"]}
{"id": "C36", "title": "Decoding arbitrary bytes is safe", "statement": "Decoding any byte string as a message of a protocol never writes outside the destination and decode buffer.", "quantifier": "every byte string", "why_tests_cant": "2^(8n) messages.", "anchors": ["pj/llvm_gen2.cpp: LengthOpLowering, VectorIndexOpLowering, AllocateOpLowering"]}
{"id": "C37", "title": "Every schema change in the allowed set still generates code", "statement": "Adding fields, terms or vectors to a schema never makes encode, decode or size function generation abort for a peer that still uses the old schema.", "quantifier": "every pair of schemas related by additions", "why_tests_cant": "All schema pairs.", "anchors": ["pj/generate_ir.cpp: projectPath, generateTermCondition, TranscodeOpLowering"]}
{"id": "C38", "title": "Default values of outlined variants", "statement": "When the source has no value for an outlined variant the destination holds the default term and later data does not overlap it.", "quantifier": "every protocol with a tag path and source lacking the field", "why_tests_cant": "All layouts.", "anchors": ["pj/generate_ir.cpp: getOrCreateStructTranscodeFn (DefaultOp), transcodeTerm"]}
{"id": "C39", "title": "Allocation and alignment in the buffer", "statement": "Aligning the buffer moves it to the least multiple of the alignment at or above it and is charged to the remaining size; allocations are disjoint and in order.", "quantifier": "every address, alignment and size", "why_tests_cant": "All addresses.", "anchors": ["pj/llvm_gen2.cpp: AlignOpLowering, AllocateOpLowering"]}
{"id": "C40", "title": "A failure anywhere stops decoding everywhere", "statement": "Every function from which a failing allocation can be reached passes the failure check on, so after a failure no further part of the object is decoded.", "quantifier": "every call graph", "why_tests_cant": "All call graphs.", "anchors": ["pj/side_effect_analysis.cpp"]}
{"id": "C41", "title": "Planning a type used in several places", "statement": "Planning gives the same wire meaning whether a named struct or variant occurs once or several times in the schema, and whether or not the tag path goes through it.", "quantifier": "every schema with shared named types, every tag path", "why_tests_cant": "Depends on which types are shared and on the order in which passes edit them in place.", "anchors": ["pj/variant_outlining.cpp: run", "pj/vector_hoisting.cpp: run", "pj/types.cpp: type_intern"]}
{"id": "C42", "title": "Every accepted schema compiles", "statement": "For every schema the parser and the validator accept, encode, size and decode functions for the protocol planned from it can be generated.", "quantifier": "every accepted schema, every tag path", "why_tests_cant": "The space of schemas is infinite; failures are internal assertions in rarely combined features.", "anchors": ["pj/generate_ir.cpp: projectPath, generateTermCondition", "pj/validate.cpp"]}
{"id": "C43", "title": "Sending under a protocol planned from another schema", "statement": "A sender whose host type differs from the schema the protocol was planned from encodes, for every object, a message that a receiver of the planned schema decodes to the by-name conversion of the object.", "quantifier": "every compatible pair of host type and planned schema, every object", "why_tests_cant": "Schema pairs and objects are unbounded.", "anchors": ["pj/generate_ir.cpp: EncodeFunctionLowering", "pj/portal.cpp"]}
{"id": "C44", "title": "Accepted handler paths lead to a term", "statement": "Every handler path a decoder declaration is accepted with names, field by field, a variant of the host type and one of its terms (or the wildcard), and no path is listed twice; so compiling the decoder and dispatching to its handlers is defined.", "quantifier": "every host type and handler list", "why_tests_cant": "All host types and paths.", "anchors": ["pj/parse.cpp: checkVariantPath, DecoderDecl", "pj/context.cpp: addDecodeFunction"]}
{"id": "C45", "title": "The copy-merging pass preserves a block", "statement": "Running the copy-merging pass over a block of instructions leaves the memory the block computes unchanged, except for bytes the block leaves undefined.", "quantifier": "every block of copies, poisons and other instructions, every memory, every sound alias analysis", "why_tests_cant": "Depends on which copies are pending when another instruction writes nearby, and on which sizes round up to a power of two.", "anchors": ["pj/copy_coalescing.cpp: runOnBlock, canReorderWith, matchLoadAndStore"]}
{"id": "C46", "title": "Importing schema files", "statement": "pjc ends for every set of files; it accepts a file iff every import is found, no file imports itself through others, every name is defined once and before its use; a file may be imported along several routes, and every imported file is acceptable by itself.", "quantifier": "every set of files, import directories and file given", "why_tests_cant": "Import graphs of any size and shape, cycles included.", "anchors": ["pj/parse.cpp: ImportDecl, parseProtoFile, defineType", "pj/protogen.hpp: ParsingScope"]}
{"id": "C47", "title": "Search for imported files", "statement": "An import names the file of the first import directory, in the order of the options, that has it; it fails iff no directory has it.", "quantifier": "every file system, list of directories and imported name", "why_tests_cant": "All combinations of directories and files.", "anchors": ["pj/parse.cpp: ImportDecl", "pj/pjc.cpp: main"]}
{"id": "C48", "title": "Protocol headers", "statement": "The header pjc --gen-proto writes for a protocol compiles, and the protocol it builds behaves like the planned one: encoders, size functions and decoders made from it do the same.", "quantifier": "every schema, tag path, planned protocol, shared definition, object and message", "why_tests_cant": "All protocols: the header has to name every part of any type the planner can produce.", "anchors": ["pj/sourcegen.cpp: createTypeHandle", "pj/sourcegen.cpp: addWireProtocol", "pj/sourcegen.cpp: addVariantBuilder", "pj/runtime.cpp: PJCreateVectorType", "pj/runtime.cpp: PJCreateTerm"]}
{"id": "C49", "title": "Schema files are read as written", "statement": "A schema file is read as exactly the declarations written in it, whatever white space and comments stand between their tokens.", "quantifier": "every list of declarations, every choice of names, numbers and modifiers, every spacing and comment", "why_tests_cant": "The texts of schema files are unbounded; a PEG grammar with greedy tokens can misread a file only for particular names or spacings.", "anchors": ["pj/parse.cpp: space_or_comment", "pj/parse.cpp: NonArrayType", "pj/parse.cpp: ArrayModifier", "pj/parse.cpp: TopDecl", "pj/parse.cpp: LanguageDecl"]}
{"id": "C50", "title": "From schema files to types", "statement": "The types and protocols pjc and parseProtoFile make from a schema file and its imports are exactly those declared: each declaration gives one type, built from the types its names refer to, and no other type appears. What is accepted can be transported: a C++ object of the declared type is received as it was sent.", "quantifier": "every set of files, import directories, layout of the text, declared protocol, planned protocol and object", "why_tests_cant": "Unbounded texts, imports and types; the composition of grammar, actions, planner and code generator is exercised by tests only for the schemas of the repository.", "anchors": ["pj/parse.cpp: ParseTypeRef", "pj/parse.cpp: StructDecl", "pj/parse.cpp: VariantDecl", "pj/parse.cpp: ProtoDecl", "pj/parse.cpp: ImportDecl", "pj/parse.cpp: parseProtoFile"]}
{"id": "C51", "title": "Portals are what the files declare", "statement": "Every portal a schema defines has the protocol and the functions of its declaration, and a specification or portal is refused only if its name is taken or a name it uses is not defined.", "quantifier": "every set of files and portal declaration", "why_tests_cant": "Combinations of files, spaces and names; the tables involved are shared between imported files.", "anchors": ["pj/parse.cpp: PortalDecl", "pj/parse.cpp: SizerDecl", "pj/parse.cpp: EncoderDecl", "pj/parse.cpp: DecoderDecl", "pj/parse.hpp: ParsingScope"]}
{"id": "C52", "title": "Longer copies change nothing", "statement": "Giving copies of bounded length into a poisoned region a constant length does not change what a program computes: every defined byte and register has the same value after any number of steps, and no byte is read that may not be read.", "quantifier": "every function, every execution of it, and all right answers of the analyses", "why_tests_cant": "The pass depends on all paths of the control flow graph, loops included; tests exercise the few graphs the generator emits for their schemas, and stale bytes are rarely compared.", "anchors": ["pj/copy_extending.cpp: findFrontier", "pj/copy_extending.cpp: runOnFunction", "pj/llvm_utils.cpp: isSafeToRead", "pj/context.cpp:475"]}
{"id": "C53", "title": "Generated classes run the functions that were declared", "statement": "Every method of a class that pjc generates for a portal or a precompiled portal runs the function declared under that name: same kind, type, path, rounding and handlers in the declared order, under the protocol of the class. The schema a precompiled class returns is that of its protocol. Every portal, precompiled portal and specification that is accepted yields classes that compile.", "quantifier": "every accepted schema file, every outer namespace, every protocol given to a constructor", "why_tests_cant": "Names and paths of all files pass through generated C++ text and are joined into symbols; tests compile a few schemas whose names do not clash.", "anchors": ["pj/sourcegen.cpp: addPortal", "pj/sourcegen.cpp: addPrecompilation", "pj/sourcegen.cpp: addProtocol", "pj/sourcegen.hpp: getNameAsString", "pj/pjc.cpp: decodeScopedName", "pj/context.cpp:261"]}
{"id": "C54", "title": "The generated operations do what the types say, through calls", "statement": "The operations generated for encode and decode, one function for each pair of a source and a target type and each set of handlers, calling one another, deliver the object: size, encode and decode run through them give the receiver what the schema says, encode writes only the bytes the size function counts, and calls nest no deeper than the target type.", "quantifier": "all schemas, tag paths and plans, host types, objects, buffers, handlers and memories", "why_tests_cant": "Which functions and operations are generated depends on both types; a test runs the functions for the types it was written with, on the objects it was written with.", "anchors": ["pj/generate_ir.cpp:195-305", "pj/generate_ir.cpp:307-566", "pj/generate_ir.cpp:568-888", "pj/generate_ir.cpp:898-1054", "pj/generate_ir.cpp:1068-1192"]}
{"id": "C55", "title": "The size function left by the sizing pass computes the size of the message", "statement": "The size function is the encode function with every operation removed that does not feed the final buffer; what is left returns the number of bytes encode writes, or at least that number with round_up, writes nothing and reads only the object.", "quantifier": "all schemas, tag paths and plans, host types, objects, source paths and memories", "why_tests_cant": "What the pass removes depends on the operations of each generated function; an operation removed too many shows only for objects that reach it, and one left too many reads memory that is usually readable.", "anchors": ["pj/sizing.cpp:30-66", "pj/sizing.cpp:68-139", "pj/llvm_gen2.cpp:1082-1115"]}
{"id": "C56", "title": "Structs of numbers survive the merging of copies", "statement": "For structs of numbers (nested to any depth), the code left by the copy-merging pass still encodes and decodes: what encode writes is the message of the object, decode under the same schema gives back the value, nothing outside the target is changed; and under another schema the receiver gets its fields by name with defaults for the ones the sender lacks.", "quantifier": "all structs of numbers, schema changes, objects, addresses, extension widths, answers about readable memory and right alias analyses", "why_tests_cant": "Which copies are merged and how far they grow depends on widths, gaps and neighbours of every field; a wrong byte shows only for particular layouts and values.", "anchors": ["pj/copy_coalescing.cpp:176-189", "pj/copy_coalescing.cpp:413-442", "pj/generate_ir.cpp:307-386", "pj/generate_ir.cpp:1068-1192", "pj/llvm_gen2.cpp:383-427", "pj/llvm_gen2.cpp:1028-1080", "pj/context.cpp:440-500"]}
{"id": "C57", "title": "A receiver's any fields hold what was sent", "statement": "A receiver may declare some of its fields as any. After decode, each such field shows, through the accessors of pj::Any, exactly the part of the value the sender put under that name, in the sender's schema; the other fields are converted by name as usual; nothing outside the object and the decode buffer changes, also when the buffer is too small and decode reports that; the rest of the buffer is handed back untouched; and a decoder exists for every sender.", "quantifier": "all schemas, tag paths and plans, receivers mixing any and plain fields, objects, buffers and memories", "why_tests_cant": "What an any points to is laid out in the decode buffer between the data of other fields, under a type computed from the wire type; tests check one wrapper struct with one number.", "anchors": ["pj/generate_ir.cpp:788-829", "pj/generate_ir.cpp:1068-1192", "pj/llvm_gen2.cpp:1117-1188", "pj/types.hpp:855-900", "pj/include/pj/any.hpp:349-358"]}
{"id": "C58", "title": "Encoders and decoders compiled together do not mix up their functions", "statement": "Any number of encoders, decoders and size functions, for different protocols, host types, source paths and handlers, may be compiled into one module, where functions for the same pair of types are shared. Compilation ends, makes no function twice and leaves no call without its function; each of them does what it does compiled alone: the size function counts the bytes written, the receiver gets what was sent, a decoder calls its own handlers and not those of another, and encoders for different source paths write the same bytes where both apply.", "quantifier": "all lists of encoders, decoders and size functions, all schemas, tag paths and plans, host types, source paths, handlers, objects, buffers and memories", "why_tests_cant": "Which functions are shared depends on which types, paths, handlers and buffers coincide anywhere in the module; a key that leaves out one of them goes wrong only when two uses differ in just that, while tests compile one portal at a time.", "anchors": ["pj/generate_ir.cpp:16-41", "pj/generate_ir.cpp:124-193", "pj/generate_ir.cpp:307-566", "pj/generate_ir.cpp:831-888", "pj/generate_ir.cpp:1068-1220", "pj/sizing.cpp:39-66"]}
{"id": "C59", "title": "A message depends on the object and on nothing else", "statement": "What encode writes is decided by the object: whatever else memory holds, padding inside the object and earlier contents of the buffer included, the message is the same, byte for byte, and nothing from elsewhere in memory gets into it. Likewise what decode leaves in the object and its buffer, what it returns and which handler it calls are decided by the message, whatever the object and the buffer held before.", "quantifier": "all schemas, tag paths and plans, host types, objects, handlers, placements, and all pairs of memories that agree on the object (or on the message)", "why_tests_cant": "Tests encode into fresh buffers and compare decoded objects; bytes left over from earlier use show only when the same buffer held something else and the object happens to have a term shorter than its room, and reading a byte outside the object shows only when that byte changes.", "anchors": ["pj/generate_ir.cpp:238-305", "pj/generate_ir.cpp:346-352", "pj/generate_ir.cpp:606-786", "pj/generate_ir.cpp:898-1003", "pj/llvm_gen2.cpp:1068-1080", "pj/wire_layout.cpp:7-160"]}
