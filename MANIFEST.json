{"claims": [
  {"property": "C01", "status": "proved", "theorems": ["C01_round_trip"], "note": ""},
  {"property": "C02", "status": "proved", "theorems": ["C02_by_name", "C02_rules_determine", "C02_unknown_ignored"], "note": ""},
  {"property": "C03", "status": "proved", "theorems": ["C03_size_exact"], "note": ""},
  {"property": "C04", "status": "partial", "theorems": ["C04_round_up_partial", "C04_filled_partial", "C04_refuted"], "note": "proved for every object whose filled-up form fits 63 bits; false otherwise: the rounded-up size wraps around"},
  {"property": "C05", "status": "proved", "theorems": ["C05_encode_footprint"], "note": ""},
  {"property": "C06", "status": "partial", "theorems": ["C06_decode_footprint_partial", "C06_only_needed_partial", "C06_refuted"], "note": "proved for receivers whose vector maximum is not below what the sender keeps inside the head; false otherwise"},
  {"property": "C07", "status": "proved", "theorems": ["C07_threshold"], "note": ""},
  {"property": "C08", "status": "proved", "theorems": ["C08_encode_source_kept", "C08_decode_message_kept"], "note": ""},
  {"property": "C09", "status": "partial", "theorems": ["C09_last_partial", "C09_refuted"], "note": "no handler runs if nothing decoded after the handlers can run out of room; false otherwise: the recorded handler runs after the failure"},
  {"property": "C10", "status": "proved", "theorems": ["C10_dispatch"], "note": ""},
  {"property": "C11", "status": "proved", "theorems": ["C11_path_same"], "note": ""},
  {"property": "C12", "status": "proved", "theorems": ["C12_int", "C12_nested"], "note": ""},
  {"property": "C13", "status": "proved", "theorems": ["C13_vector", "C13_array"], "note": ""},
  {"property": "C14", "status": "partial", "theorems": ["C14_unit_default_partial", "C14_refuted"], "note": "proved when the default term has no payload; false otherwise"},
  {"property": "C15", "status": "partial", "theorems": ["C15_by_name_partial", "C15_unknown_tag_partial", "C15_refuted", "C15_table_refuted"], "note": "proved when tags stay, or are below 128 with default tag 0, or are sparse; false otherwise"},
  {"property": "C16", "status": "partial", "theorems": ["C16_dispatch_partial", "C16_refuted"], "note": "true for tags below 2^63, false above"},
  {"property": "C17", "status": "proved", "theorems": ["C17_layout"], "note": ""},
  {"property": "C18", "status": "partial", "theorems": ["C18_tag_width_partial", "C18_refuted"], "note": "true except for the tag 2^64-1"},
  {"property": "C19", "status": "proved", "theorems": ["C19_hoisting"], "note": ""},
  {"property": "C20", "status": "proved", "theorems": ["C20_outlined"], "note": ""},
  {"property": "C21", "status": "proved", "theorems": ["C21_plan_invisible"], "note": ""},
  {"property": "C22", "status": "proved", "theorems": ["C22_framing", "C22_round_trip"], "note": ""},
  {"property": "C23", "status": "partial", "theorems": ["C23_newest_partial", "C23_refuted"], "note": "true if the known versions come first; decodeProto gives up at the first unknown version, so it is false otherwise"},
  {"property": "C24", "status": "partial", "theorems": ["C24_round_trip_partial", "C24_same_decoder", "C24_refuted"], "note": "the type comes back unless a vector has an inline hint, which is lost; decoders built from the type that comes back behave the same in every case"},
  {"property": "C25", "status": "partial", "theorems": ["C25_self", "C25_meaning_partial", "C25_refuted"], "note": "true if units meet units and same-tag terms have the same payload type; the code compares each payload with itself, so it is false otherwise"},
  {"property": "C26", "status": "proved", "theorems": ["C26_tags", "C26_rejects"], "note": ""},
  {"property": "C27", "status": "proved", "theorems": ["C27_innermost", "C27_fails", "C27_defined_once"], "note": ""},
  {"property": "C28", "status": "proved", "theorems": ["C28_round_trip", "C28_injective", "C28_blanks_refuted"], "note": "for names without dots or blanks; a path written with blanks around the dots is read as different names"},
  {"property": "C29", "status": "proved", "theorems": ["C29_struct", "C29_vector", "C26_rejects"], "note": ""},
  {"property": "C30", "status": "partial", "theorems": ["C30_any_partial", "C30_files", "C30_refuted"], "note": "proved for every schema whose integers have 1, 2, 4 or 8 bytes, with or without terms that planning splits; every type of an accepted schema file is such; false for other widths made through PJCreateIntType. The model sorts terms stably by name, as std::sort does for up to 16 terms: with more, the tag reported for a split term may be its second one"},
  {"property": "C31", "status": "proved", "theorems": ["C31_set", "C31_reads"], "note": "Every sequence of copies the pass accepts into one set, any memory, any answer of isSafeToRead. The pass around the set is C45."},
  {"property": "C32", "status": "partial", "theorems": ["C32_host_described_partial", "C32_round_trip_partial", "C32_refuted"], "note": "Proved for every accepted schema without arrays of integers wider than one byte: the generated host type is well formed and describes exactly the C++ object, hence encode and decode move C++ objects. False for arrays of wider integers (C32_refuted): sizeof the empty wrapper class is used as stride."},
  {"property": "C33", "status": "proved", "theorems": ["C33_span_max"], "note": "Every history of span constructions, conversions, copies and assignments; the template operator= does not compile and is left out."},
  {"property": "C34", "status": "proved", "theorems": ["C34_copies", "C34_copy_read"], "note": "Any chain of copies at any addresses modulo 2^64, and the memory form: the library reads the copy as it read the original."},
  {"property": "C35", "status": "partial", "theorems": ["C35_before_retry_partial", "C35_after_retry_wrong", "C35_refuted"], "note": "Holds until the first failed decode; after it every call announces more than the array has (the new buffer is a shadowing local)."},
  {"property": "C36", "status": "partial", "theorems": ["C36_bounded_partial", "C36_flat_partial", "C36_refuted"], "note": "writes stay in place if every receiver vector has a maximum; for receivers without vectors decode succeeds and reads and writes in place; false for unbounded vectors: a length of 2^64-1 wraps the buffer check"},
  {"property": "C37", "status": "partial", "theorems": ["C37_additions_partial", "C37_sender_partial", "C37_refuted", "C37_encode_refuted"], "note": "decoders when default terms have no payload, senders that have the hinted vectors, and the tag path variant unless its default has no payload; false otherwise"},
  {"property": "C38", "status": "partial", "theorems": ["C38_resting_partial", "C38_refuted"], "note": "proved when the default term has no payload; false otherwise"},
  {"property": "C39", "status": "proved", "theorems": ["C39_allocate", "C39_align", "C39_disjoint"], "note": ""},
  {"property": "C40", "status": "proved", "theorems": ["C40_closure", "C40_stops"], "note": "All modules of the shape generate_ir.cpp produces (a catch makes one call and does not itself allocate; nothing fails inside a size operation), any control flow, any failing allocations. A catch goes on to its InvokeCallback after a failed call, which is where C09_refuted comes from."},
  {"property": "C41", "status": "partial", "theorems": ["C41_shared_partial", "C41_planned_partial", "C41_refuted"], "note": "Any sharing of named types and any tag path, as long as the struct that holds the outlined variant is used once. Otherwise false: outlining edits that struct everywhere, so two outlined variants share one term offset; the assertion in types.cpp fails, and without assertions encode writes past the size it announced."},
  {"property": "C42", "status": "partial", "theorems": ["C42_compiles_partial", "C42_refuted"], "note": "proved when default terms have no hinted vector; false otherwise"},
  {"property": "C43", "status": "partial", "theorems": ["C43_by_name_partial", "C43_relay_partial", "C37_encode_refuted", "C38_refuted"], "note": "proved when the sender has the hinted vectors and either has the variant on the tag path or its default term has no payload; false otherwise"},
  {"property": "C44", "status": "proved", "theorems": ["C44_handlers_fit"], "note": ""},
  {"property": "C45", "status": "partial", "theorems": ["C45_block_partial", "C45_finer_partial", "C45_finer_covers", "C45_refuted", "C45_between_refuted"], "note": "Holds when no other instruction of the block that the pass moves copies behind writes a byte these copies write, poisons they may grow into included. Otherwise false: a default stored into a freshly poisoned struct is overwritten by the copy before it, which has grown."},
  {"property": "C46", "status": "partial", "theorems": ["C46_ends", "C46_accepts_partial", "C46_cycle", "C46_twice", "C46_refuted", "C46_alone_refuted"], "note": "what is accepted is characterised exactly; false that a file may be imported along two routes, and that an accepted import is acceptable by itself"},
  {"property": "C47", "status": "partial", "theorems": ["C47_only_partial", "C47_missing", "C47_refuted"], "note": "proved when one directory has the file; false otherwise: the directory last in alphabetical order wins"},
  {"property": "C48", "status": "partial", "theorems": ["C48_same_partial", "C48_decoder_partial", "C48_encoder_refuted", "C48_float_refuted", "C48_twice_refuted"], "note": "Without floats, without split terms and with one definition per name the header builds the very protocol; with split terms decoders are still the same. Refuted: a float makes the header fail to compile, so does a variant used both inline and outlined; split terms lose their attributes, so the encoder never uses the inline form."},
  {"property": "C49", "status": "partial", "theorems": ["C49_read_partial", "C49_legible", "C49_shadowed", "C49_end_comment_refuted", "C49_blank_refuted", "C49_literal_end_refuted"], "note": "Proved for every list of declarations and every spacing and commenting of it, with exact exceptions: names that start like a built-in type can be declared but not referred to, a comment must end with a line end, a file of blanks only is rejected unless empty, and nothing may follow a language text at the end of a file. The exceptions are proved to be rejected."},
  {"property": "C50", "status": "partial", "theorems": ["C50_declared", "C50_all", "C50_sane", "C50_specs", "C50_round_trip_partial", "C50_layout", "C50_depth", "C50_defined_partial", "C50_number_refuted", "C50_transport_refuted"], "note": "Files to types for all sources; false for numbers from 2^63 on and for accepted types that cannot be transported (both refuted)."},
  {"property": "C51", "status": "partial", "theorems": ["C51_portals_partial", "C51_single_partial", "C51_merged_refuted", "C51_new_name_refuted"], "note": "Proved for portals declared once; refuted for portals of one name in two files and for specifications in nested spaces of one name."},
  {"property": "C52", "status": "partial", "theorems": ["C52_same_partial", "C52_frontier", "C52_read", "C52_branch_refuted", "C52_loop_refuted"], "note": "Proved for functions in which no other store to the bytes gained leads to the copy without a new poison; false otherwise, for a store on one of two paths and for a copy in a loop."},
  {"property": "C53", "status": "partial", "theorems": ["C53_portal_partial", "C53_precompiled_partial", "C53_class", "C53_distinct", "C53_option", "C53_symbols_refuted", "C53_class_refuted", "C53_head_refuted"], "note": "Proved for every accepted file whose generated names differ, and that they differ when no name has an underscore (and no function of a portal is named after a member of its class). False in general: symbols of precompiled functions joined by underscores collide, a function named ctx, proto or portal gives a class that does not compile, and a specification over a type that is not a class makes the generator fail."},
  {"property": "C54", "status": "proved", "theorems": ["C54_same", "C54_delivers", "C54_round_trip"], "note": ""},
  {"property": "C55", "status": "partial", "theorems": ["C55_exact", "C55_round_up_partial", "C55_round_up_refuted"], "note": "exact sizes proved; with round_up the size is right and nothing is written, but references of elements that are not there are read"},
  {"property": "C56", "status": "partial", "theorems": ["C56_encode_same", "C56_decode_same", "C56_encode", "C56_decode_partial", "C56_round_trip", "C56_noalias", "C56_decode_refuted"], "note": "Proved for encode and for decode under the same schema. Under another schema proved when the code is orderly (no struct whose first field is stored, not copied, behind a copied field), and refuted otherwise. LLVM passes that run in between are not modelled."},
  {"property": "C57", "status": "partial", "theorems": ["C57_any_fields_partial", "C57_refuted", "C57_array_refuted", "C57_default_refuted"], "note": "Receivers of structs, variants, arrays and vectors, nested, with any fields anywhere in them; with too little room the decode fails and touches nothing but object and buffer. Missing: sender's terms that planning split and that fill a term with an any, integers whose width is not 1, 2, 4 or 8 bytes. False, and refuted: that every sender gets a decoder, namely not with an any it lacks, not with an array of any, not with a variant whose default term is an any."},
  {"property": "C58", "status": "proved", "theorems": ["C58_module_complete", "C58_same", "C58_delivers", "C58_dispatch", "C58_paths"], "note": "The table of functions of a module (FnKey, getOrCreateFn, cached_fns_) over the operations of C54, and the size functions made from it (C55): making the functions always ends, no key is made twice, every function called is there, and every encoder, decoder and size function asked for does what it does alone, for any set of them. Not part: functions for any targets; named types are compared as trees."},
  {"property": "C59", "status": "partial", "theorems": ["C59_message_partial", "C59_solid_partial", "C59_equal_partial", "C59_received_partial", "C59_refuted"], "note": "Proved: for all memories that agree on the object's bytes, encode succeeds with the same size and writes the same decided bytes; every other byte of the message is undefined or what the buffer held before; any receiver gets what was sent from the decided bytes alone. Without vectors and with variants whose terms have one size, every byte is decided, and equal objects at any addresses give equal messages. The same for decode: return value, handler and decided bytes depend on the message only, whether it succeeds or fails. False as stated (C59_refuted): a variant with a shorter term leaves the rest of its room as it was in the buffer, so two encodings of one object differ and old contents are sent. With vectors, object and buffer stay at the same addresses in both runs."}
]}
