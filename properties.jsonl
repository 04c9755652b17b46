{"id": "C01", "title": "circular_queue is a bounded FIFO", "statement": "For a circular_queue of capacity n>0, after any sequence of push_back, pop_front, putback and clear calls that respect the documented preconditions, front, size, empty and full report exactly what a FIFO list does where push_back on a full queue drops the oldest element; no slot outside the buffer is ever touched.", "quantifier": "every capacity, every element type value, every finite history of operations", "why_tests_cant": "the wrap-around state depends on the whole operation history and capacity; a test samples finitely many histories", "anchors": ["adobe/circular_queue.hpp: circular_queue::push_back, pop_front, putback, clear, front, size, empty, full"]}
{"id": "C02", "title": "copying a circular_queue preserves its value", "statement": "A copy-constructed or copy-assigned circular_queue holds the same sequence as its source and every later operation on the copy behaves as it would on the source, and stays inside its buffer.", "quantifier": "every reachable queue and every later history on the copy", "why_tests_cant": "needs all reachable wrap positions and all later operations", "anchors": ["adobe/circular_queue.hpp: circular_queue(const circular_queue&), operator=(circular_queue)"]}
{"id": "C03", "title": "circular_queue equality is value equality", "statement": "x == y returns true exactly when the two queues hold equal sequences, reading only stored elements.", "quantifier": "every pair of reachable queues of any capacity", "why_tests_cant": "depends on the pair of internal wrap positions reached by two arbitrary histories", "anchors": ["adobe/circular_queue.hpp: operator==, one/two range accessors"]}
{"id": "C04", "title": "UTF-8 round trip", "statement": "Converting any sequence of Unicode scalar values to UTF-8 and the result back to UTF-32 returns the original sequence.", "quantifier": "every sequence of Unicode scalar values of any length", "why_tests_cant": "over a million code points in unbounded sequences", "anchors": ["adobe/unicode.hpp: utf32_to_utf8, to_utf32, copy_utf, to_utf8"]}
{"id": "C05", "title": "UTF-16 round trip", "statement": "Converting any sequence of Unicode scalar values to UTF-16 and back returns the original sequence; surrogate pairs are produced exactly for code points above U+FFFF.", "quantifier": "every sequence of Unicode scalar values", "why_tests_cant": "unbounded sequences", "anchors": ["adobe/unicode.hpp: utf32_to_utf16, to_utf32, to_utf16"]}
{"id": "C06", "title": "UTF conversion bounds", "statement": "For arbitrary (even malformed) input, conversion terminates, never reads outside the given range, and writes at most factor*length code units, where factor is 1 (narrowing 8 to any), 3 (16 to 8), 4 (32 to 8), 2 (32 to 16).", "quantifier": "every input code unit sequence, malformed or not", "why_tests_cant": "must hold for all malformed inputs", "anchors": ["adobe/unicode.hpp: copy_utf and the expansion table in its documentation, value_to_utf*, to_utf32_engine"]}
{"id": "C07", "title": "UTF-8 output is well-formed", "statement": "The encoder's output for a Unicode scalar value is the unique well-formed (shortest form) UTF-8 sequence of the Unicode standard's table 3-7.", "quantifier": "every Unicode scalar value", "why_tests_cant": "stated for all code points", "anchors": ["adobe/unicode.hpp: utf32_to_utf8"]}
{"id": "C08", "title": "MD5 is chunking independent and correct", "statement": "Feeding a message to md5_t in any number of update calls of any sizes and calling final gives the RFC 1321 digest of the concatenation; the object is then ready for a new message.", "quantifier": "every message and every way of cutting it into update calls", "why_tests_cant": "unbounded messages and cuts", "anchors": ["source/md5.cpp: md5_t::update, md5_t::final, md5_transform; adobe/md5.hpp"]}
{"id": "C09", "title": "SHA is chunking independent and correct", "statement": "Feeding a message of whole octets to a sha object in any number of update calls and finalizing gives the FIPS 180 digest (SHA-1/224/256/384/512) of the concatenation.", "quantifier": "every octet message shorter than the standard's limit and every cut", "why_tests_cant": "unbounded messages and cuts", "anchors": ["adobe/sha.hpp: sha::update, sha::finalize, sha::digest, stuff_into_state, block_and_digest, sha_2_digest_message_block, sha1_traits_t"]}
{"id": "C10", "title": "finalize does not disturb the running hash", "statement": "Calling finalize on a sha object any number of times never changes the result of later update/finalize calls.", "quantifier": "every update history with finalize calls interleaved anywhere", "why_tests_cant": "all interleavings", "anchors": ["adobe/sha.hpp: sha::finalize"]}
{"id": "C11", "title": "SHA digests depend only on the message bits", "statement": "digest(first, num_bits) depends only on the first num_bits bits reachable from first.", "quantifier": "every bit length (also not a multiple of 8) and every memory content past the message", "why_tests_cant": "the defect only shows for values outside the message", "anchors": ["adobe/sha.hpp: sha::digest(first, num_bits), stuff_into_state, finalize"]}
{"id": "C12", "title": "closed_hash containers are finite sets/maps", "statement": "After any history of insert, erase, clear, reserve, find and copy, a closed_hash_set/map contains exactly the keys (with values) a mathematical finite map would contain; find, count, size and iteration agree with it whatever the hash function.", "quantifier": "every key type, hash function, capacity and operation history", "why_tests_cant": "collision patterns depend on the hash and history", "anchors": ["adobe/closed_hash.hpp: closed_hash_set::insert, erase, find, reserve, clear, size, operator==; closed_hash_map::operator[]"]}
{"id": "C13", "title": "closed_hash insertion overwrites in place and only one node per key", "statement": "insert of an existing key never changes size, leaves every other entry unchanged, and the table holds at most one entry per key at all times; erase removes exactly one.", "quantifier": "every reachable table", "why_tests_cant": "depends on chain layouts from arbitrary histories", "anchors": ["adobe/closed_hash.hpp: closed_hash_set::insert, erase"]}
{"id": "C14", "title": "forest operations refine ordered trees", "statement": "insert, erase, insert_parent, push/pop and splice on a forest have the effect of the corresponding operations on ordered lists of trees; all other nodes keep their positions.", "quantifier": "every forest and every position", "why_tests_cant": "unbounded shapes and histories", "anchors": ["adobe/forest.hpp: forest::insert, erase, insert_parent, splice, push_front, push_back, pop_front, pop_back"]}
{"id": "C15", "title": "fullorder traversal visits each node exactly twice", "statement": "Walking from begin() to end() meets every node exactly once on its leading and once on its trailing edge, leading before trailing, with the descendants properly nested in between; decrement undoes increment.", "quantifier": "every forest built by any operation history", "why_tests_cant": "unbounded shapes", "anchors": ["adobe/forest.hpp: forest_iterator::increment, decrement; depth_fullorder_iterator"]}
{"id": "C16", "title": "erase of a range erases exactly the enclosed nodes", "statement": "erase(first,last) removes exactly those nodes both of whose edges lie in [first,last) and no other, keeping the relative order of the rest; the reported size is right.", "quantifier": "every forest and every fullorder range", "why_tests_cant": "all ranges of unbounded forests", "anchors": ["adobe/forest.hpp: forest::erase(first,last), forest::size, size_valid"]}
{"id": "C17", "title": "copy_on_write has value semantics", "statement": "Any history of copying, moving, assigning, swapping, reading and writing over any number of copy_on_write handles is indistinguishable from the same history over independent plain values; identity/unique_instance report sharing only.", "quantifier": "every number of handles and every history", "why_tests_cant": "aliasing bugs need specific histories", "anchors": ["adobe/copy_on_write.hpp: copy_on_write copy/move ctor, operator=, write, read, swap, unique_instance, identity"]}
{"id": "C18", "title": "copy_on_write reference counts are exact", "statement": "At every point each shared object's count equals the number of handles referring to it, an object is destroyed exactly when the last handle goes, and none is used after destruction or leaked.", "quantifier": "every history", "why_tests_cant": "use-after-free and leaks need specific histories", "anchors": ["adobe/copy_on_write.hpp: add_ref, release, model::count_m"]}
{"id": "C19", "title": "selection algebra is pointwise boolean algebra", "statement": "selection_union, _intersection, _symmetric_difference, _difference and invert of two selections contain index i exactly when i's membership in the operands satisfies or, and, xor, and-not, not.", "quantifier": "every pair of strictly increasing boundary sequences and every index", "why_tests_cant": "unbounded indices and boundary patterns", "anchors": ["adobe/algorithm/selection_algorithms.hpp: selection_operation, selection_union, selection_intersection, selection_difference, selection_symmetric_difference, invert, is_selected", "adobe/selection.hpp: selection_t"]}
{"id": "C20", "title": "selection_t equality is set equality", "statement": "x == y holds exactly when the two selections contain the same indices.", "quantifier": "every pair of selections", "why_tests_cant": "all pairs", "anchors": ["adobe/selection.hpp: operator==(selection_t), is_selected"]}
{"id": "C21", "title": "selection_includes is set inclusion", "statement": "selection_includes(x,y) is true exactly when every index selected in y is selected in x, and it reads only inside the boundary sequences.", "quantifier": "every pair of selections", "why_tests_cant": "all pairs", "anchors": ["adobe/algorithm/selection_algorithms.hpp: selection_includes"]}
{"id": "C22", "title": "selection copy/foreach/size visit exactly the selected elements", "statement": "selection_copy and selection_foreach deliver exactly the selected elements of the range in order, once each, and size(selection, range) is their number.", "quantifier": "every range and every selection of it", "why_tests_cant": "unbounded ranges", "anchors": ["adobe/algorithm/selection_algorithms.hpp: selection_copy, selection_foreach, size"]}
{"id": "C23", "title": "selection_stable_partition", "statement": "selection_stable_partition permutes the range so unselected elements come first then selected ones, both in original order, and returns the boundary.", "quantifier": "every range and selection", "why_tests_cant": "unbounded", "anchors": ["adobe/algorithm/selection_algorithms.hpp: selection_stable_partition, selection_find_boundary"]}
{"id": "C24", "title": "index set conversions round trip", "statement": "Converting a strictly increasing index set to a selection and back yields the same index set and membership agrees with is_selected.", "quantifier": "every strictly increasing index sequence", "why_tests_cant": "unbounded", "anchors": ["adobe/algorithm/selection_algorithms.hpp: index_set_to_selection, selection_to_index_set, is_selected"]}
{"id": "C25", "title": "JSON generate then parse is the identity", "statement": "Parsing the output of json_generator for any value whose strings are valid UTF-8 yields an equal value.", "quantifier": "every value tree of any depth and any string contents", "why_tests_cant": "unbounded trees and strings", "anchors": ["adobe/json.hpp: json_generator, json_parser"]}
{"id": "C26", "title": "JSON parser never reads past the input", "statement": "json_parser on any NUL-terminated input reads no byte after the terminator, terminating with a value or an exception.", "quantifier": "every byte string", "why_tests_cant": "needs all truncated inputs", "anchors": ["adobe/json.hpp: json_parser::is_sequence, is_char, parse"]}
{"id": "C27", "title": "JSON \\u escapes decode per RFC 7159", "statement": "A \\uXXXX escape decodes to its code point and a \\uD8xx\\uDCxx pair to the supplementary code point it denotes, as UTF-8.", "quantifier": "every escape sequence", "why_tests_cant": "all pairs", "anchors": ["adobe/json.hpp: json_parser::is_escape, is_unicode_escape, utf8"]}
{"id": "C28", "title": "bound searches return the partition point", "statement": "lower_bound, upper_bound and equal_range with a projection and comparison return exactly the partition points of the range, for any range partitioned with respect to the key, using logarithmically many comparisons and reading only inside the range.", "quantifier": "every partitioned range of any length, every comparison and key", "why_tests_cant": "all lengths", "anchors": ["adobe/algorithm/lower_bound.hpp", "adobe/algorithm/upper_bound.hpp", "adobe/algorithm/equal_range.hpp"]}
{"id": "C29", "title": "binary_search finds an element iff present", "statement": "binary_search(range, x, comp, proj) returns the first position whose projected value is equivalent to x, or the end if there is none, for every sorted range.", "quantifier": "every sorted range and key", "why_tests_cant": "all lengths", "anchors": ["adobe/algorithm/binary_search.hpp"]}
{"id": "C30", "title": "is_sorted decides sortedness", "statement": "is_sorted(first,last,less) is true exactly when the range is sorted with respect to less, i.e. no element is less than its predecessor; all overloads agree.", "quantifier": "every range", "why_tests_cant": "all lengths", "anchors": ["adobe/algorithm/sorted.hpp: sorted, is_sorted"]}
{"id": "C31", "title": "select/median/clamp are stable order statistics", "statement": "select_n, median, min, max and clamp return the element that a stable sort of the arguments would put at that position, for every strict weak order, also with equivalent arguments.", "quantifier": "every strict weak ordering and argument tuple", "why_tests_cant": "the equivalences need every pattern of ties under every order", "anchors": ["adobe/algorithm/minmax.hpp", "adobe/algorithm/select.hpp", "adobe/algorithm/clamp.hpp", "adobe/algorithm/median.hpp"]}
{"id": "C32", "title": "rotate and reverse_until", "statement": "rotate exchanges the two subranges preserving their order and reports the new boundary; reverse_until reverses and reports the boundary; nothing else changes.", "quantifier": "every range and middle position", "why_tests_cant": "all lengths", "anchors": ["adobe/algorithm/rotate.hpp", "adobe/algorithm/reverse.hpp"]}
{"id": "C33", "title": "reduce_balanced equals left-to-right reduction", "statement": "For an associative operation reduce_balanced over a range of non-zero values gives the same result as the left to right fold, in operand order (no commutativity needed).", "quantifier": "every range and every associative operation", "why_tests_cant": "all lengths and operations", "anchors": ["adobe/algorithm/reduce.hpp: add_to_counter, reduce_nonzeros, reduce_balanced"]}
{"id": "C34", "title": "gather collects without reordering", "statement": "gather moves the elements satisfying the predicate around the pivot, keeping relative order on all three parts, and returns exactly their range.", "quantifier": "every range, pivot and predicate", "why_tests_cant": "all lengths", "anchors": ["adobe/algorithm/gather.hpp"]}
{"id": "C35", "title": "name_t equality is string equality", "statement": "Two name_t compare equal exactly when they were made from equal strings; c_str() returns the string it was made from; empty and only empty names are false; < is lexicographic order.", "quantifier": "every history of constructing names from any strings", "why_tests_cant": "requires all pairs of strings", "anchors": ["source/name.cpp: map_string, dynamic_name_t; adobe/name.hpp: name_t, static_name_t, hash"]}
{"id": "C36", "title": "static and dynamic names agree", "statement": "A name_t made from a compile-time static_name_t and one made from the equal run-time string compare equal whichever is made first, and == on static_name_t agrees with == on the name_t they convert to.", "quantifier": "every string", "why_tests_cant": "all strings", "anchors": ["adobe/name.hpp: detail::name_hash, static_name_t, operator\"\"_name", "source/name.cpp"]}
{"id": "C37", "title": "string pool keeps strings stable and disjoint", "statement": "Every string added to unique_string_pool_t keeps its address and contents for the pool's lifetime, distinct strings never overlap, equal strings give the same address.", "quantifier": "every history of adds of any lengths", "why_tests_cant": "bump-allocator boundaries need all lengths", "anchors": ["source/string_pool.cpp: string_pool_t::add, unique_string_pool_t::add"]}
{"id": "C38", "title": "table_index unique keeps one row per key", "statement": "After sort and unique the index holds exactly one row for each key present.", "quantifier": "every table and key order", "why_tests_cant": "all tables", "anchors": ["adobe/table_index.hpp: table_index::unique, sort"]}
{"id": "C39", "title": "virtual machine evaluates compiled expressions", "statement": "evaluate of the array an expression compiles to pushes exactly the value of the expression under the standard semantics (operators, lookup, arrays, dictionaries, conditionals) and leaves the rest of the stack unchanged; type errors throw.", "quantifier": "every expression of any depth, every stack and variable environment", "why_tests_cant": "unbounded expressions", "anchors": ["source/virtual_machine.cpp: virtual_machine_t::implementation_t::evaluate and operators; source/expression_parser.cpp"]}
{"id": "C40", "title": "logical operators and conditionals short-circuit", "statement": "&&, || and ?: evaluate only the operand that decides the result: an erroneous unevaluated branch never throws.", "quantifier": "every expression", "why_tests_cant": "all expressions", "anchors": ["source/virtual_machine.cpp: logical_and_operator, logical_or_operator, ifelse_operator"]}
{"id": "C41", "title": "FNV-1a matches its definition and is incremental", "statement": "fnv1a of a byte sequence is the FNV-1a function for each width.", "quantifier": "every byte sequence", "why_tests_cant": "all sequences", "anchors": ["adobe/fnv.hpp"]}
{"id": "C43", "title": "erase_if removes exactly the matching elements", "statement": "erase_if over a subrange removes exactly the elements satisfying the predicate, keeps the order of all others and everything outside the range, for block and for node containers.", "quantifier": "every container, subrange and predicate", "why_tests_cant": "all lengths and match patterns", "anchors": ["adobe/algorithm/erase_if.hpp", "adobe/algorithm/find.hpp: find_range_if"]}
{"id": "C44", "title": "copy_bounded never leaves its ranges", "statement": "copy_bounded copies the first min(n,m) elements, changes nothing else in or around the destination, never reads or writes outside the two ranges and returns how far it got; the forward and random access versions agree.", "quantifier": "every pair of ranges", "why_tests_cant": "all length combinations", "anchors": ["adobe/algorithm/copy.hpp: copy_n, copy_bounded"]}
{"id": "C45", "title": "copy_on_write strong exception guarantee", "statement": "If the allocation inside a construction, assignment or write() throws, every handle still has the value it had, nothing is leaked and the exception is delivered; this also holds when the value type's copy constructor throws.", "quantifier": "every history and every operation", "why_tests_cant": "needs fault injection at every point", "anchors": ["adobe/copy_on_write.hpp: allocate, allocate_move, reset, write, operator="]}
{"id": "C46", "title": "copy_on_write handles in different threads are isolated", "statement": "Threads that each use their own handles, sharing objects behind them in any pattern, never race on a value, never use a freed object, never leak, observe exactly what they would observe alone, and cannot block each other.", "quantifier": "every number of threads, every program, every interleaving", "why_tests_cant": "schedules are unbounded", "anchors": ["adobe/copy_on_write.hpp: write, operator=, release, copy constructor, default constructor", "adobe/counter.hpp: counter_t"]}
{"id": "C47", "title": "forest::reverse reverses a range of siblings", "statement": "reverse(first,last) on a child range reverses the order of those siblings, each keeping its whole subtree, and leaves the rest of the forest alone.", "quantifier": "every forest and every child range", "why_tests_cant": "unbounded forests and ranges", "anchors": ["adobe/forest.hpp: forest::reverse", "adobe/algorithm/reverse.hpp: reverse_nodes, reverse_append"]}
{"id": "C48", "title": "forest copies and equality are by value trees", "statement": "operator== is true exactly when the two forests are equal as ordered trees of values, and a copy has new nodes but the same value trees, independent of the original.", "quantifier": "every pair of forests", "why_tests_cant": "unbounded shapes", "anchors": ["adobe/forest.hpp: operator==(forest), forest(const forest&), insert(position, first, last)"]}
{"id": "C49", "title": "selection_partition_copy splits a range", "statement": "selection_partition_copy writes the unselected elements, in order, to the first output iterator and the selected ones, in order, to the second, and returns the iterators past what it wrote, for every kind of output iterator.", "quantifier": "every range, selection and pair of output iterators", "why_tests_cant": "needs runs of every number and length, and each kind of iterator", "anchors": ["adobe/algorithm/selection_algorithms.hpp: selection_partition_copy"]}
{"id": "C50", "title": "selection_stable_partition_about gathers the selection at a position", "statement": "selection_stable_partition_about moves the selected elements, in order, into one block around position p, keeps the unselected ones in order on either side, and returns the block's ends.", "quantifier": "every range, selection and position", "why_tests_cant": "unbounded ranges and selections", "anchors": ["adobe/algorithm/selection_algorithms.hpp: selection_stable_partition_about"]}
{"id": "C51", "title": "JSON texts are accepted exactly, with the value they denote", "statement": "json_parse accepts every RFC 7159 text whose top level is an object or array and returns the value it denotes; it rejects every other input.", "quantifier": "every byte string", "why_tests_cant": "all inputs, all nestings", "anchors": ["adobe/json.hpp: json_parser::parse, is_value, is_object, is_array, is_string, is_number", "adobe/json_helper.hpp: asl_json_helper_t::move_append"]}
{"id": "C52", "title": "entity_escape yields plain text, and needs_entity_escape predicts it", "statement": "entity_escape of any string consists of printable ASCII, with &, <, >, quotes and every other byte written as an entity reference; needs_entity_escape is true exactly when escaping changes the string.", "quantifier": "every byte string", "why_tests_cant": "all strings over all 256 bytes", "anchors": ["source/expression_filter.cpp: entity_escape, needs_entity_escape, needs_entity"]}
{"id": "C53", "title": "entity_unescape inverts entity_escape", "statement": "entity_unescape(entity_escape(s)) is s.", "quantifier": "every byte string", "why_tests_cant": "all strings over all 256 bytes", "anchors": ["source/expression_filter.cpp: entity_escape, entity_unescape, entity_map_find"]}
{"id": "C54", "title": "entity_unescape leaves text alone when nothing needs unescaping", "statement": "If needs_entity_unescape(s) is false then entity_unescape(s) is s.", "quantifier": "every byte string", "why_tests_cant": "all strings", "anchors": ["source/expression_filter.cpp: needs_entity_unescape, entity_unescape"]}
{"id": "C55", "title": "a[i] selects the i-th element of an array and a.k the member k of a dictionary", "statement": "Indexing an array by a number in range gives the element at that position and a member access gives the member; an index or key that is not there throws.", "quantifier": "every array, index, dictionary and key", "why_tests_cant": "all arrays and indexes", "anchors": ["source/virtual_machine.cpp: index_operator; adobe/virtual_machine.hpp: cast; adobe/conversion.hpp: runtime_cast"]}
{"id": "C56", "title": "min and max return the least and greatest argument", "statement": "min(x, ...) and max(x, ...) return an argument that is not above, or below, any other, for any number of arguments.", "quantifier": "every list of numbers", "why_tests_cant": "unbounded argument lists over all doubles", "anchors": ["source/virtual_machine.cpp: min_function, max_function"]}
{"id": "C57", "title": "expression parser decides the grammar and emits the right code", "statement": "expression_parser::is_expression ends on every token sequence; when it returns true the tokens taken are an expression of the documented grammar (precedence, left associativity) and exactly that expression's code was appended; it returns false, taking and appending nothing, exactly when the next token cannot begin an expression; every expression of the grammar followed by a token that cannot continue it is accepted; no text has two readings; parsing then evaluating yields the expression's meaning.", "quantifier": "every token sequence, every grammatical expression of any depth", "why_tests_cant": "unbounded token sequences and nesting", "anchors": ["source/expression_parser.cpp: is_expression ... is_unary_operator, is_token, require_token"]}
{"id": "C58", "title": "token lookahead behaves as a cursor", "statement": "get_token and putback over the two-token ring buffer deliver the token sequence of the input in order, and a putback gives back the last token got, as long as no more than two are put back in a row; nothing is lost or repeated.", "quantifier": "every token sequence and every legal history of get and putback", "why_tests_cant": "all histories", "anchors": ["adobe/implementation/lex_shared.hpp: stream_lex_base_t::get_token, put_token, putback_token", "adobe/circular_queue.hpp"]}
{"id": "C59", "title": "token_to_string names every token", "statement": "token_to_string returns the spelling of every operator and token name of the language for use in error messages.", "quantifier": "every token name the lexer can deliver", "why_tests_cant": "the lookup is a binary search whose table must be sorted; end of input is a token too", "anchors": ["source/token.cpp: token_to_string", "adobe/algorithm/binary_search.hpp"]}
{"id": "C42", "title": "a segmented range is the concatenation of its segments", "statement": "Iterating a segmented range from first to last reads the elements of the segments in order, once each, skipping empty segments; a decrement undoes an increment; iterators compare equal exactly when they stand at the same element or both at the end; no step of a loop inside the range is undefined.", "quantifier": "every sequence of segments, including empty ones anywhere", "why_tests_cant": "patterns of empty segments are unbounded", "anchors": ["adobe/iterator.hpp: segmented_iterator, make_segmented_range"]}
{"id": "C60", "title": "table_index lookups on a sorted index", "statement": "After sort(), find(key) and operator[](key) give the first row with that key and report absence exactly when no row has it; lower_bound, upper_bound and equal_range bracket exactly the rows with the key; inserting a range keeps its order.", "quantifier": "every table, key function, strict weak order and key", "why_tests_cant": "unbounded tables", "anchors": ["adobe/table_index.hpp: find, operator[], lower_bound, upper_bound, equal_range, insert, sort"]}
{"id": "C61", "title": "the lexer decides the token grammar", "statement": "lex_stream_t delivers, for every byte text, exactly the token sequence of the documented lexical grammar (longest-match identifiers and keywords, numbers, strings with adjacent concatenation, comments, operators, compounds), rejects exactly the texts that have none, every text has at most one reading, and lexing always ends.", "quantifier": "every byte text, every keyword set, every numeric conversion", "why_tests_cant": "unbounded texts over all 256 bytes", "anchors": ["source/lex_stream.cpp: lex_stream_t::implementation_t::parse_token, is_identifier_or_keyword, is_number, is_string, is_comment, is_compound, is_simple, skip_white_space"]}
{"id": "C62", "title": "token positions are right", "statement": "The line_position of a token names the line and the byte offset at which that token starts.", "quantifier": "every text and every token of it", "why_tests_cant": "all layouts of line ends, comments and strings", "anchors": ["source/lex_stream.cpp: parse_token, skip_white_space, is_line_end, is_comment, is_string"]}
{"id": "C63", "title": "lexing is defined for every byte text", "statement": "Lexing any byte text yields tokens or a stream error and never undefined behaviour.", "quantifier": "every byte text", "why_tests_cant": "all texts over all 256 bytes", "anchors": ["source/lex_stream.cpp: is_identifier_or_keyword, skip_white_space (<cctype> calls on char)"]}
{"id": "C64", "title": "expression text evaluates to its meaning", "statement": "For a text that reads as an expression, lexing, parsing and evaluating on the virtual machine yields exactly the value the language gives that expression; a text whose tokens do not begin an expression is never parsed as one.", "quantifier": "every text, every environment", "why_tests_cant": "composition of three unbounded components", "anchors": ["source/lex_stream.cpp", "source/expression_parser.cpp", "source/virtual_machine.cpp"]}
{"id": "C65", "title": "a sheet decides every relation", "statement": "update() always comes to an end; with well-formed relations (at least two terms, no cell named twice in a relation) it either reports that the sheet is over-constrained or leaves every relation in force enforced by exactly one of its terms, derives no cell otherwise, and leaves no cell waiting for a relation; no null pointer is followed, however the sort orders equal priorities.", "quantifier": "every sheet and history, every way std::sort may order equal priorities", "why_tests_cant": "constraint graphs are unbounded", "anchors": ["source/adam.cpp: sheet_t::implementation_t::flow, update"]}
{"id": "C66", "title": "relations override the cells of lowest priority", "statement": "A derived cell gives way to a cell that is not derived and whose priority is at least as high, so the highest-priority cell is never overridden; cells are computed from one another without a cycle, and each only from source cells of at least its own priority; a derived linked cell sinks below all cells that keep their priority and below the cells it is computed from, and no other priority changes.", "quantifier": "every sheet, history and sort order of equal priorities", "why_tests_cant": "constraint graphs and priorities are unbounded", "anchors": ["source/adam.cpp: flow, name_to_priority, cell_t::priority"]}
{"id": "C67", "title": "set and touch raise priorities as documented", "statement": "set(n, v) stores v, gives the cell a priority strictly above every other cell and changes nothing else, so that the next update does not override it; touch raises the named cells above all others, keeps their relative order and changes no value.", "quantifier": "every history of a sheet", "why_tests_cant": "all histories of sets, touches and updates", "anchors": ["source/adam.cpp: set, touch, update"]}
{"id": "C68", "title": "update() solves the sheet", "statement": "A successful update leaves every interface, output and invariant cell with a value that satisfies the sheet: a derived cell has the value of the relation term in use, every other cell the value of its expression over the other cells' values or of its source, so every relation in force holds of the values; source values set by the user are kept unless their linked cell was overridden.", "quantifier": "every sheet without a definitional cycle, every history of sets, touches and updates, every order of ties", "why_tests_cant": "constraint graphs, expressions and histories are unbounded", "anchors": ["source/adam.cpp: update, calculate, cell_t::calculate, get, evaluate, initialize"]}
{"id": "C69", "title": "the contributing set of a cell is what it depends on", "statement": "The value of a cell after update() depends only on the inputs in its contributing set (and the conditions') and on the relative order of priorities: change anything else and it comes out the same; in particular it does not depend on how equal elements are ordered by the sort, as long as no two source cells have the same priority.", "quantifier": "every sheet, every pair of histories, every sort order", "why_tests_cant": "pairs of unbounded histories", "anchors": ["source/adam.cpp: flow, evaluate, get, priority_accessed, contributing_m"]}
{"id": "C70", "title": "value monitors are told exactly the changes", "statement": "update() tells the monitors of an interface or output cell its new value exactly when the value differs from the one before the update, once, and delivers the contributing set to those who asked.", "quantifier": "every sheet and history", "why_tests_cant": "all histories", "anchors": ["source/adam.cpp: update, evaluate, dirty_m, monitor_value_m"]}
{"id": "C71", "title": "invariant monitors are told the right flag", "statement": "After update() the invariant flag of a cell is true exactly when the cell shares no contributing input with an invariant that fails, and monitors are told exactly when the flag changes.", "quantifier": "every sheet and history", "why_tests_cant": "all sheets and histories", "anchors": ["source/adam.cpp: update (poison), monitor_invariant_dependent"]}
{"id": "C72", "title": "inspect() and operator[] read the solution", "statement": "After update(), inspect(e) gives the value of e over the values of the sheet and changes none of them; operator[](n) gives the value of the cell.", "quantifier": "every sheet, history and expression", "why_tests_cant": "all sheets and expressions", "anchors": ["source/adam.cpp: inspect, operator[], get"]}
{"id": "C73", "title": "CEL serialization round trips", "statement": "Writing any value as CEL (begin_asl_cel) produces text that the expression lexer and parser accept as one expression and that evaluates to the value written.", "quantifier": "every value: numbers, booleans, strings, names, empty, and arrays and dictionaries nested to any depth; with and without entity escaping", "why_tests_cant": "values nest without bound and the composition runs through the lexer, the parser and the machine", "anchors": ["source/iomanip_asl_cel.cpp: asl_cel_format::begin_bag ... handle_atom", "adobe/iomanip.hpp: format_base, begin_atom, begin_bag, begin_sequence", "source/any_regular.cpp: operator<<(dictionary_t)", "adobe/array.hpp: operator<<(array_t)"]}
{"id": "C74", "title": "CEL text is canonical", "statement": "Equal values are written as identical text, however their dictionaries were filled; and values that CEL can write and whose texts are identical are equal.", "quantifier": "every pair of values", "why_tests_cant": "pairs of unbounded values; dictionaries iterate in hash order", "anchors": ["source/iomanip_asl_cel.cpp", "source/any_regular.cpp: operator<<(dictionary_t) (sorted index)"]}
{"id": "C75", "title": "a shared_task_queue runs its tasks one at a time, in order", "statement": "Tasks submitted to one shared_task_queue never overlap, begin in the order in which they were submitted, and none runs twice.", "quantifier": "every number of pool threads, every history of async, suspend and resume calls from any threads, every interleaving", "why_tests_cant": "schedules are unbounded", "anchors": ["source/future.cpp: shared_task_queue::task_queue_, thread_pool", "adobe/future.hpp: shared_task_queue, move_binder_"]}
{"id": "C76", "title": "suspend() holds a queue back", "statement": "After suspend() and until resume(), at most one more task of the queue begins (the one already on its way), and none if a task was running when suspend took effect.", "quantifier": "every history and interleaving", "why_tests_cant": "schedules are unbounded", "anchors": ["source/future.cpp: task_queue_::_suspend, _continue, async"]}
{"id": "C77", "title": "no task of a queue is forgotten", "statement": "The threads come to rest by themselves, and when they do every task submitted to a queue that is not suspended has run, whatever suspends and resumes came before.", "quantifier": "every history and interleaving, every number of threads above 0", "why_tests_cant": "a lost continuation shows only under particular schedules", "anchors": ["source/future.cpp: task_queue_::_resume, _continue, async; thread_pool::_run, async"]}
{"id": "C78", "title": "the thread pool runs every job once", "statement": "adobe::async hands jobs to the threads in order, each is run exactly once, no wake-up is lost.", "quantifier": "every history and interleaving, every number of threads", "why_tests_cant": "schedules are unbounded", "anchors": ["source/future.cpp: thread_pool"]}
{"id": "C79", "title": "async(when, f) runs f at its time", "statement": "A task scheduled for a time is not run before it; of several due ones the earliest is released first; none is lost or released twice; when the threads have nothing left to do no task that is due stays behind; the queue's front is never read when it is empty.", "quantifier": "every history of calls, every behaviour of the clock, every interleaving and spurious wake-up", "why_tests_cant": "schedules and clocks are unbounded", "anchors": ["source/future.cpp: timed_queue"]}
{"id": "C80", "title": "cancellation callbacks", "statement": "Cancelling calls each registered callback that has not been deregistered exactly once, a callback registered after the cancel is called at once, none is called without a cancel or twice; deregistering a registration takes out its callback and no other; is_canceled tells whether a cancel took effect.", "quantifier": "every history of cancel, register, deregister and is_canceled from any threads, with callbacks that return or throw, every interleaving, every choice of node addresses", "why_tests_cant": "schedules and histories are unbounded", "anchors": ["adobe/task.hpp: cancel_state::cancel, register_callback, deregister_callback, is_canceled"]}
{"id": "C81", "title": "concurrent_queue is a linearizable FIFO", "statement": "Every concurrent history of push and pop is explained by a sequential first-in first-out queue in an order that agrees with real time; every call returns.", "quantifier": "every element type, any number of threads, every interleaving", "why_tests_cant": "histories are unbounded", "anchors": ["adobe/future.hpp: concurrent_queue"]}
{"id": "C82", "title": "dancing_links_t finds every exact cover once", "statement": "After any legal series of set and set_secondary_column calls, search(max, callback, heuristic) ends; the callback hears of rows that cover every primary column, meet only in secondary columns and there only with one and the same colour; each such set of rows is reported once, up to max of them, and the number returned is the number reported, whatever the heuristic.", "quantifier": "every matrix of any size, every order of the calls, every set of secondary columns, every colouring, every max above 0, every heuristic that picks a linked column", "why_tests_cant": "matrices are unbounded, and the search undoes its own link surgery at every level", "anchors": ["adobe/dancing_links.hpp: dancing_links_t::set, set_secondary_column, search, do_search; select_right_heuristic_t, select_most_constrained_heuristic_t", "adobe/implementation/toroid.hpp: byte_toroid_t"]}
{"id": "C83", "title": "Eve keeps views in their containers, in order", "statement": "After evaluate() or adjust() every view lies within the margins and frame of its container; the views of a row or column stand in order, at least the spacing apart, none smaller than its natural size; in flat coordinates every view lies in the window and leaves do not overlap.", "quantifier": "every tree of views, every measure, margin, spacing, indent and alignment, every size from the natural size up, every history of evaluate, adjust and set_visible", "why_tests_cant": "trees, sizes and histories are unbounded", "anchors": ["source/eve.cpp: adjust_with, solve_up_with, solve_up_cross, layout_with, layout_cross, flatten; evaluate, adjust"]}
{"id": "C84", "title": "Eve's layout is exact", "statement": "Each view is exactly where its alignment says: left aligned items from the left, right aligned ones up to the right end, filled and centred ones in shares of the extra space that differ by at most one pixel and add up to all of it; without a size the form gets its natural size, with a size exactly that size.", "quantifier": "every tree of views, every size, every history", "why_tests_cant": "integer division of the extra space must add up for every number of items and pixels", "anchors": ["source/eve.cpp: layout_with, layout_cross, padded_count; solve_up; layout"]}
{"id": "C86", "title": "Eve lays out every legal form", "statement": "evaluate() and adjust() succeed, and the guide solver settles, for every form in which right aligned items stand last in their line, and throw for every other.", "quantifier": "every tree of views and every size, even too small ones", "why_tests_cant": "trees are unbounded", "anchors": ["source/eve.cpp: layout_with (std::logic_error), solve"]}
{"id": "C87", "title": "Eve sessions", "statement": "However often a form is evaluated, resized, and views are hidden and shown in between, each layout is as good as the first: heights are measured from the final widths, hidden views are left alone, attributes never change.", "quantifier": "every history of evaluate, adjust and set_visible", "why_tests_cant": "histories are unbounded; each call starts from what the last one left in the proxies", "anchors": ["source/eve.cpp: evaluate, adjust, set_visible, calculate, calculate_vertical, filter_visible"]}
{"id": "C85", "title": "Eve's guides line up", "statement": "After evaluate() or adjust(), if the guide solver has settled and nothing is balanced: in every container the k-th guides of all left aligned items that stand one above the other are at the same place, so are those of the right aligned ones counted from the right; the guides of a container are those of its items; and the k-th guides of two rows of labels in a column are at the same place on the screen.", "quantifier": "every tree of views, every measured set of guides, every size, every state left by earlier calls", "why_tests_cant": "guides go up and down the tree until they settle, for trees of any depth", "anchors": ["source/eve.cpp: adjust_with, adjust_cross, solve_up_with, solve_up_cross, solve_down_with, solve_down_cross, solve, layout_with, layout_cross, flatten"]}
{"id": "C88", "title": "parsing a property model announces exactly what is written", "statement": "parse() of a property model accepts exactly the texts of the documented grammar; for an accepted text it calls add_cell, add_interface, add_relation and add_external once for each declaration, in the order of the text, with the declared name, the code of exactly the written expression, its position, the linked flag and the comments; it always returns or throws.", "quantifier": "every token sequence and every text", "why_tests_cant": "all texts", "anchors": ["source/adam_parser.cpp: adam_parser (all productions)", "adobe/adam_parser.hpp (the grammar)"]}
{"id": "C89", "title": "parsing a layout announces exactly what is written", "statement": "parse() of a layout accepts exactly the texts that begin with a layout of the documented grammar and announces each cell and relation as written and in order, then the end of the sheet, then each view before the views in it, with the place its parent's call returned; it always returns or throws.", "quantifier": "every token sequence and every text; views nested to any depth", "why_tests_cant": "all texts, unbounded nesting", "anchors": ["source/eve_parser.cpp: eve_parser (all productions)", "adobe/eve_parser.hpp (the grammar)"]}
{"id": "C90", "title": "what was announced when parsing fails", "statement": "If parse() of a property model or a layout throws, the calls it made before are exactly those of whole declarations (and begun views) at the start of the text: no declaration is announced in part, out of order or twice; and a text that is refused announces nothing.", "quantifier": "every refused text, every place of the error", "why_tests_cant": "all error positions in all texts", "anchors": ["source/adam_parser.cpp", "source/eve_parser.cpp", "source/expression_parser.cpp: throw_exception"]}
{"id": "C91", "title": "the XML lexer's tokens", "statement": "get_token reads at every place exactly the documented token (processing instruction, comment, tag brackets, and inside a tag names, equal signs and quoted values, references, character data), fails exactly where one is begun and not finished, always moves forward, stays inside the buffer, and gives a token that was put back again.", "quantifier": "every buffer, every place in it, inside and outside of tags, with and without white space skipped", "why_tests_cant": "all byte sequences", "anchors": ["source/xml_lex.cpp: xml_lex_t::parse_token, is_*", "adobe/implementation/lex_shared.hpp: lex_base_t::get_token, putback_token, skip_white_space"]}
{"id": "C92", "title": "attribute_set_t is a map", "statement": "An attribute set holds each name once, in a fixed order; operator[] finds exactly what it holds; insert adds or replaces, merge keeps what was there; count_same, ==, has_collisions and count_collisions tell what the two sets have in common.", "quantifier": "every set made by insertions, range insertions and merges", "why_tests_cant": "all sequences of operations", "anchors": ["adobe/xml_parser.hpp: attribute_set_t", "adobe/implementation/lex_shared_fwd.hpp: token_range_less"]}
{"id": "C93", "title": "parsing XML content", "statement": "parse_content succeeds exactly on texts of the grammar, writes the content with references replaced, comments dropped and elements handled by the client, and calls the client as described; it reads nothing outside its buffers and ends.", "quantifier": "every text, every predicate and callback (which may answer with new text to be parsed)", "why_tests_cant": "all texts, all clients, unbounded nesting", "anchors": ["adobe/xml_parser.hpp: is_content, is_element, content_callback, parse_content", "source/xml_parser.cpp: transform_reference"]}
{"id": "C94", "title": "what the XML callback is given", "statement": "Each call of the callback is for one element and passes its whole text, its name, its attributes (the last of several with one name) and the text of its children without comments at either end; elements inside an element that is handed over as a whole are not announced; calls come in document order.", "quantifier": "every text, predicate and callback", "why_tests_cant": "all texts", "anchors": ["adobe/xml_parser.hpp: content_callback, is_element, is_content"]}
{"id": "C95", "title": "XML documents and sequences of elements", "statement": "parse_document takes an optional byte order mark, an optional declaration and one element; parse_element_sequence takes elements with text between them; each element is handled as in content.", "quantifier": "every text, predicate and callback", "why_tests_cant": "all texts", "anchors": ["adobe/xml_parser.hpp: parse_document, is_prolog, is_bom, parse_element_sequence"]}
{"id": "C96", "title": "the text of a zuid", "statement": "str() is the 36 character lower case text of the identifier; constructing a zuid from the text of an identifier, in either case and whatever follows, gives that identifier; so text identifies a zuid; constructing from any string is well defined.", "quantifier": "every 128 bit identifier, every string", "why_tests_cant": "2^128 identifiers, all strings", "anchors": ["source/zuid.cpp: zuid_t(const char*), zuid_t(const std::string&), str, format_uuid"]}
{"id": "C97", "title": "the order of zuids", "statement": "== is identity of the 128 bits; < is a strict total order, the lexicographic order of the texts.", "quantifier": "every pair and triple of identifiers", "why_tests_cant": "2^256 pairs", "anchors": ["source/zuid_uuid.cpp: uuid_compare", "source/zuid.cpp: operator==, operator<"]}
{"id": "C98", "title": "name based zuids", "statement": "zuid_t(name_space, name) is the RFC 4122 version 3 identifier of the name in the name space: the MD5 digest of the octets of the name space followed by the name, with version and variant stamped, the same on every machine.", "quantifier": "every name space, every name", "why_tests_cant": "all names of all lengths", "anchors": ["source/zuid.cpp: zuid_t(const zuid_t&, const std::string&)", "source/zuid_uuid.cpp: uuid_create_from_name, format_uuid_v3", "adobe/implementation/zuid_sys_dep.hpp: swab, host_to_net, net_to_host"]}
{"id": "C99", "title": "generated zuids are unique", "statement": "No two default constructed zuids are equal, whatever the clock does and whatever random numbers are drawn, in one thread and in several.", "quantifier": "every sequence of constructions by any threads, every behaviour of the clock", "why_tests_cant": "needs billions of constructions and particular schedules", "anchors": ["source/zuid_uuid.cpp: uuid_create, get_current_time, format_uuid_v1", "source/zuid_sys_dep.cpp: read_state, write_state, get_ieee_node_identifier"]}
{"id": "C100", "title": "any_regular_t behaves as a value", "statement": "Whatever sequence of constructions, copies, moves, assignments, swaps, writes through cast and destructions a program makes (without using moved-from values), every any_regular_t reports the type and value last given to it, copies are independent of their originals, equality compares type and value, and a cast to another type throws bad_cast and changes nothing.", "quantifier": "every program over any number of variables, every type held, every value", "why_tests_cant": "histories of mixed operations over several variables and both storage kinds are unbounded", "anchors": ["adobe/any_regular.hpp: any_regular_t, any_model_local, any_model_remote", "adobe/any_regular.hpp: cast, swap, operator=="]}
{"id": "C101", "title": "a moved-from any_regular_t is still usable", "statement": "After its value was moved away, an any_regular_t can be destroyed, assigned, swapped and moved, and can be copied, compared and queried like any other value.", "quantifier": "every history that leaves a moved-from variable, every next operation", "why_tests_cant": "the state left behind depends on the type held and on the whole history", "anchors": ["adobe/any_regular.hpp: any_model_remote move constructor", "adobe/any_regular.hpp: any_regular_t(any_regular_t&&)"]}
{"id": "C102", "title": "any_regular_t operations that throw change nothing", "statement": "If an allocation, a copy or a move constructor throws during an operation on an any_regular_t, all variables keep their values, no memory is lost and the program can go on.", "quantifier": "every history, every operation, every point at which an exception is thrown", "why_tests_cant": "every allocation and every copy in every history is a separate failure point", "anchors": ["adobe/any_regular.hpp: any_regular_t::assign, operator=, new_move", "adobe/memory.hpp: construct"]}
{"id": "C103", "title": "any_regular_t treats numbers as numbers", "statement": "A number stored in an any_regular_t can be read back exactly as any numeric type that can represent it, two of them are equal exactly if the numbers are equal, and reading it as a type that cannot represent it throws bad_cast.", "quantifier": "all integer types, all values in their ranges, any history", "why_tests_cant": "ranges over all values of all the integer types", "anchors": ["adobe/any_regular.hpp: cast, any_regular_t(T)", "adobe/conversion.hpp: promote"]}
{"id": "C104", "title": "any_regular_t neither leaks nor allocates needlessly", "statement": "At every point of every history the free store holds exactly the values that are too big to be kept inside a variable; programs that only use small types never allocate.", "quantifier": "every history with exceptions at any point", "why_tests_cant": "a leak shows only in a particular history", "anchors": ["adobe/any_regular.hpp: traits, destruct", "adobe/poly.hpp: is_small, ~poly_base"]}
{"id": "C105", "title": "poly values behave as values", "statement": "poly<T> gives the same guarantees as any_regular_t: every sequence of operations, including assign with a value and with another poly (also itself), leaves each variable with the value last given to it, and an assignment that throws changes nothing.", "quantifier": "every program over any number of variables, every concrete type", "why_tests_cant": "same as C100 and C102", "anchors": ["adobe/poly.hpp: poly_base, poly_state_local, poly_state_remote, assign"]}
{"id": "C106", "title": "forest iterators step back", "statement": "For every iterator adaptor of a forest (preorder, postorder, depth, reverse, filtered) decrementing undoes incrementing, so walking backwards visits the same positions as walking forwards in the opposite order.", "quantifier": "every reachable forest, every position, every predicate", "why_tests_cant": "all tree shapes and all predicates", "anchors": ["adobe/forest.hpp: edge_iterator, depth_fullorder_iterator, reverse_fullorder_iterator, filter_fullorder_iterator, filter_fullorder_range"]}
{"id": "C107", "title": "static_table look-up is the map it was declared as", "statement": "Once sort() has run, a look-up in a static_table never reads outside the table: if some entry has the key it yields the value of such an entry (the value, when keys are distinct), otherwise the one-argument form throws logic_error and the two-argument form returns false and leaves the result untouched. Names ordered as by strcmp are suitable keys.", "quantifier": "every table of any size with any strict weak order on keys whose equivalence is ==, every result of sort, every key", "why_tests_cant": "A test tries a few keys of a few tables; the claim is about every table and key and any order sort may leave equal keys in.", "anchors": ["adobe/static_table.hpp: static_table::operator(), sort", "adobe/name.hpp: operator<"]}
{"id": "C108", "title": "apply_layout_parameters sets exactly what the parameters say", "statement": "A call that returns changes each layout attribute exactly as its parameter says (names through the alignment and placement tables, unknown names ignored, guides masked/balanced as listed, a row without a guide mask lets baselines out, spacing and margin as one number or an array) and no attribute whose parameter is absent; it returns exactly for well-formed parameters, and applying the same parameters again changes nothing.", "quantifier": "every previous attribute value and every parameter dictionary", "why_tests_cant": "There are infinitely many dictionaries, and the parameters interact (mask, balance, placement).", "anchors": ["source/eve_evaluate.cpp: apply_layout_parameters", "adobe/layout_attributes.hpp"]}
{"id": "C109", "title": "Layout parameters cannot break the attributes", "statement": "Whatever parameters a layout description supplies, apply_layout_parameters either returns or throws (never touches memory outside its vectors), a balanced guide is suppressed afterwards, and a throw leaves the attributes as they were.", "quantifier": "every dictionary, well-formed or not, and every previous attribute value", "why_tests_cant": "The failing dictionaries are the malformed ones tests do not contain.", "anchors": ["source/eve_evaluate.cpp: apply_layout_parameters"]}
{"id": "C110", "title": "Reserved layout names stand for themselves", "statement": "layout_variables returns the name itself for the seven alignment names and three placement names and asks the layout sheet for every other name.", "quantifier": "every name, every arrangement sort may leave, every sheet", "why_tests_cant": "All names cannot be tried, and one call order (before any layout was bound) is never tested.", "anchors": ["source/eve_evaluate.cpp: layout_variables, init_once_"]}
{"id": "C111", "title": "The XML text of a value is well-formed", "statement": "Writing a value in the XML format gives one element xml whose content is the specified text: leaves in string, ident, bool, integer, double, empty or xml_unknown elements, arrays and dictionaries as nested elements with their rows in the order of the keys, one per line, indented by depth; strings are escaped. The text is well-formed, and the library's own XML parser reads it back as that one element.", "quantifier": "every value whose numbers convert to a 64 bit integer, whose keys are distinct and whose names and printed numbers contain no markup; every string", "why_tests_cant": "Well-formedness of the output of every nested value with every string cannot be tried; the tests only look at the output by eye.", "anchors": ["source/iomanip_xml.cpp: xml_format::handle_atom, stack_event", "adobe/iomanip.hpp: format_base", "adobe/xml_parser.hpp: xml_parser"]}
{"id": "C112", "title": "The XML text identifies the value", "statement": "Two values made of 64 bit integers, strings, names, booleans, empty, arrays and dictionaries have the same XML text exactly when they are the same value; the order in which dictionaries were filled does not show.", "quantifier": "every pair of such values", "why_tests_cant": "Injectivity is about all pairs of values.", "anchors": ["source/iomanip_xml.cpp: xml_format::handle_atom", "source/any_regular.cpp: operator<<(ostream, dictionary_t)"]}
{"id": "C113", "title": "What the JavaScript and PDF serializers write can be read back", "statement": "The text that the JavaScript serializer writes for a value is an expression in the notation of JavaScript literals which denotes that value, and the text that the PDF serializer writes, between its two comments, is a PDF object which denotes it; two values with the same text are therefore the same value.", "quantifier": "every value of numbers, booleans, strings, names, empty values, arrays and dictionaries, nested arbitrarily, and every continuation of the text", "why_tests_cant": "A test reads back a few values; whether the text of every value is read as that value depends on the characters of every string, name and key and on the nesting.", "anchors": ["source/iomanip_javascript.cpp: javascript_format::begin_atom, handle_atom, begin_bag, begin_sequence", "source/iomanip_pdf.cpp: pdf_format::begin_atom, handle_atom, begin_bag, begin_sequence", "source/any_regular.cpp and adobe/array.hpp: operator<<"]}
{"id": "C114", "title": "Layout of the JavaScript and PDF serializations", "statement": "For a value whose dictionaries have distinct keys and whose numbers convert to 64 bit integers, the serialization exists and is laid out as follows: arrays on one line between brackets, their items separated by a comma and a space (JavaScript) or a space (PDF); dictionaries with one row per line, in the order of their keys, indented by one tab per enclosing dictionary, the row a name and its value, rows separated by a comma (JavaScript) or nothing (PDF), empty containers as an opening and a closing delimiter with a space between; integers in decimal, other numbers as the stream prints them, and strings, names, booleans and empty values in their notation. The text does not depend on the order in which dictionaries were filled.", "quantifier": "every such value, nested arbitrarily, every string, name and key, and every rendering of doubles", "why_tests_cant": "Separators and indentation depend on a stack of open elements and on counters of values already written; a test covers a few shapes only.", "anchors": ["source/iomanip_javascript.cpp: all functions", "source/iomanip_pdf.cpp: all functions", "adobe/iomanip.hpp: push_stack, pop_stack, stack_depth"]}
{"id": "C115", "title": "external_model_t routes values between the sheet and its monitors", "statement": "After any history of calls on an external_model_t, model_set(name, v) calls, with v, exactly the monitors that were connected to that cell and not disconnected since, in the order in which they were connected; set(name, v) calls exactly the function last given to model_monitor for that cell, or throws bad_function_call; cells of different names do not affect each other, adding a cell again changes nothing, count says whether the cell was added, and a call that names a cell that was not added throws logic_error and changes nothing. The comparison used for names is a strict total order.", "quantifier": "every history of calls, every name and every value, monitors that do not themselves call the model", "why_tests_cant": "A test exercises a few histories; routing must be right after all of them, including cells added twice and connections cut in between.", "anchors": ["source/external_model.cpp: all functions", "adobe/external_model.hpp: external_model_t", "adobe/string.hpp: str_less_t"]}
{"id": "C116", "title": "Messages of stream errors", "statement": "The message that format_stream_error makes of an exception names the text and every position the exception passed through, in order, each as name:line:column, and under each the line of source it points at, without its indentation and with tabs as spaces, and under that a caret, which stands below the character at the reported column.", "quantifier": "every exception, every trace of positions, every line of source and every position in or before it", "why_tests_cant": "The position of the caret depends on the indentation, the column and several integer conversions; tests compare a few messages.", "anchors": ["source/istream.cpp: operator<<, format_snippet, format_stream_error", "adobe/istream.hpp: line_position_t, stream_error_t"]}
{"id": "C117", "title": "get_line splits text into lines", "statement": "For every text, get_line returns its first line and the position after its line end, where a line end is LF, CR LF, or CR not followed by LF, or the end of the text; calling it until the text is used up yields all the lines, in order, and only them.", "quantifier": "every text, with any mixture of line ends", "why_tests_cant": "Line ends of two characters, at the end of the text or next to each other are corner cases of every text, which examples only sample.", "anchors": ["adobe/istream.hpp: is_line_end, get_line"]}
{"id": "C118", "title": "xstring_replace answers with the best candidate, filled in", "statement": "For every glossary, id (or text that holds it) and list of marker texts, xstring_replace answers with the text stored under the id that has the most markers among those all of whose markers are given, the first of them on a tie, with each marker replaced by the value of the first given marker that has the same attributes; it throws the no-viable-candidate error exactly when no stored text has all of its markers given. The answer does not depend on anything else.", "quantifier": "every glossary, every id, every list of marker texts that are XML content", "why_tests_cant": "the choice is a maximum over every list of stored texts and every list of markers, with replacement texts that hold markers again", "anchors": ["source/xstring.cpp: replacement_engine_t (run, candidate_parse, marker_parse, xstr_id_harvest), xstring_replace"]}
{"id": "C119", "title": "A glossary stores each of its strings under its id", "statement": "For every glossary text made of well-formed elements with text between them, parsing it stores exactly the xstr elements in it, at whatever depth, each with its value under the value of its id attribute and in the order of the text, but that strings repeated word for word may be stored once; which of the strings is chosen for a replacement is as if every one were stored.", "quantifier": "every glossary text, with elements nested to any depth and of any number", "why_tests_cant": "elements nest to any depth, and repeated strings may be at any distance", "anchors": ["source/xstring.cpp: context_frame_t::store, exact_match_exists, xml_xstr_store", "adobe/xstring.hpp: xstring_context_t::glossary_parse, range_for_key"]}
{"id": "C120", "title": "xstring takes the tags from a text and leaves its markers", "statement": "For every text that is XML content, xstring answers with the text without its tags and comments, with references replaced, and with marker elements as they are written; a string that is in the glossary replaces the default given in the text.", "quantifier": "every text, glossary and context attributes", "why_tests_cant": "elements nest to any depth and the value of each is parsed again", "anchors": ["source/xstring.cpp: xml_xstr_lookup, context_frame_t::closest_match", "adobe/xstring.hpp: context_frame_t::element_handler, parse_xml_fragment, xstring"]}
{"id": "C121", "title": "Loading a property model builds exactly the sheet its text declares", "statement": "A property model text, parsed with the callbacks of bind_to_sheet, loads if and only if it is in the grammar and its declarations can be read from top to bottom: no name is declared twice, an initializer uses only inputs, interface cells and constants declared before it (an interface cell also its own, which is empty then) and has a value, relations name interface cells declared before them, and external sections are only used with an external model. The sheet then consists of exactly the declared cells and relations, in order, with the declared kinds, names, initializers, definitions and links, it holds the declared values, and the external model is given the external names in order; otherwise an exception or a syntax error is reported.", "quantifier": "every text, every meaning of expressions, with and without an external model", "why_tests_cant": "texts are unbounded sequences of declarations, each of which depends on all that precede it", "anchors": ["source/adam_evaluate.cpp: add_cell, add_relation, bind_to_sheet", "source/adam_parser.cpp: parse", "source/adam.cpp: sheet_t::add_input, sheet_t::add_constant, sheet_t::add_interface, sheet_t::add_relation"]}
{"id": "C122", "title": "Loading a layout solves its sheet and then shows each view once", "statement": "A layout text, parsed with the callbacks of bind_layout, is laid out if and only if it is in the grammar, its declarations can be read from top to bottom, the sheet can be solved, the parameters of each view come to a dictionary and the client takes each view. The sheet consists of exactly the declared cells and relations and holds the declared values; the client is called once for each view, each before the views in it and in the order of the text, with the view\u2019s class, its parameters as they are in the solved sheet, and what the call for its parent returned. No view is shown before the sheet has been solved.", "quantifier": "every text, every meaning of expressions, every client that accepts or throws", "why_tests_cant": "views nest to any depth and the sheet is any sheet", "anchors": ["source/eve_evaluate.cpp: evaluate_named_arguments, add_cell, add_relation, bind_layout", "source/eve_parser.cpp: parse", "source/adam.cpp: sheet_t::update"]}
{"id": "C123", "title": "update() of a sheet is always defined", "statement": "Whatever was done to a sheet before - cells added, values set, touched, reinitialized, inspected, updates that succeeded and updates that threw - update() comes to an end, returning or throwing, and on the way never reads outside an array, never follows a missing cell, and never takes the name of a pending evaluation for a cell of another kind; so do the add_ calls, set() and reinitialize(), and so does inspect(). The author of the sheet has to see to one thing only: a term that names several cells must yield an array with a value for each of them. An array that is too short is indexed past its end.", "quantifier": "every sheet that can be built whose relations have at least two terms over distinct cells and whose expressions are arbitrary, every history of calls, every order of iteration of the hash indices and of equal priorities", "why_tests_cant": "A test runs one sheet through one history. That evaluation stays within bounds depends on which term the flow picked for each cell, on what a thrown update() left on the stack of pending names, and on the arrays the expressions yield.", "anchors": ["source/adam.cpp: sheet_t::implementation_t::update, sheet_t::implementation_t::get, sheet_t::implementation_t::flow, cell_t"]}
{"id": "C124", "title": "The single-pass algorithms do what they are documented to do", "statement": "max_adjacent_difference returns the first element of the first of the largest steps of the range (and its start when there are fewer than two elements); iota assigns value + i to the i-th element, touches nothing else and returns the next value; filter calls its function once for each element in order, handing it what the call before returned, so that what the function writes is concatenated; find_match returns the first position whose element matches with the value as the first argument of the comparison, or last; for_each_position visits every position once, in order; other_of returns the member of the pair that the predicate tells from its argument. None of them reads or writes outside the range, and each of them ends.", "quantifier": "every list of values of any type, every range inside it, every subtraction, every strict weak order, every function and predicate", "why_tests_cant": "A test uses a few short ranges of numbers; the statements are about every range, every element type and every function.", "anchors": ["adobe/numeric.hpp: max_adjacent_difference", "adobe/algorithm/iota.hpp: iota", "adobe/algorithm/filter.hpp: filter", "adobe/algorithm/find_match.hpp: find_match", "adobe/algorithm/for_each_position.hpp: for_each_position", "adobe/algorithm/other_of.hpp: other_of"]}
{"id": "C125", "title": "The operators of an enumeration", "statement": "On an enumeration with the bitset operators, & | ^ and ~ act bit by bit on the underlying type, stay inside it, and obey the laws of sets, also where the underlying type is promoted to int. With the arithmetic operators the result is the exact one whenever the underlying type has it, and otherwise - if the operation is defined at all - congruent to it modulo the size of the type; ++ and -- undo each other and yield the new value as prefix and the old one as postfix. On an unsigned type of 32 bits or more and on any type of up to 15 bits only division by zero is undefined; with 16 unsigned bits a product can overflow the int it is computed in.", "quantifier": "every integer type of 2 to 64 bits as the underlying type, every pair of its values", "why_tests_cant": "A test tries a few flags. The laws are about every value of every underlying type, and where the promotion to int matters is at the edges of the types.", "anchors": ["adobe/enum_ops.hpp: operator&, operator|, operator^, operator~, operator+, operator-, operator*, operator/, operator%, operator++, operator--"]}
