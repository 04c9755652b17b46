# Formal model of stlab/adobe_source_libraries in Rocq (Coq 8.16.1)

## Layout
`rocq/theories/<Topic>_Model.v`  executable Gallina model, each definition citing /repo file and lines.
`rocq/theories/<Topic>_Spec.v`   small independent specification (no use of the model's helpers).
`rocq/theories/<Topic>_Proofs.v` lemmas.
`rocq/theories/<Topic>_Props.v`  only the property theorems, non-vacuity `Example`s and `Print Assumptions`.

A theorem called `…_partial` proves only part of the property; `…_refuted` proves that
the code, as modelled, violates the property and exhibits a witness.
Undefined behaviour (reading/writing outside a range, dereferencing end, …) is an explicit
outcome (`None`/`UB`) in every model where the C++ could do it.

## Planned treatment of each property
| id | model | proof |
|----|-------|-------|
| C01 | queue state (buffer list, begin, end, is_empty) | refinement to a list FIFO, induction over op lists |
| C02 | copy constructor on the same state | refinement for non-full queues (`_partial`), refutation for full ones (the copied `end` is not wrapped) |
| C03 | operator== via the two segments | proof for non-empty queues, refutation for empty ones |
| C04,C05,C07 | encoders/decoders on Z code units | case split on the ranges, div/mod arithmetic; list induction |
| C06 | decoder loop with explicit fuel/outcome | termination + consumption + expansion bounds by induction |
| C08 | md5 object on 32-bit words | simulation: object state after updates = fold of compress over full blocks of the concatenation, buffer = remainder |
| C09,C10,C11 | sha class parametric in traits | same simulation; C11 refuted by two memories agreeing on the message |
| C12,C13 | node table with home/misplaced/free chains | representation invariant, refinement to a finite map |
| C14-C16 | doubly linked edge list of nodes | refinement: fullorder edge sequence is a balanced bracket sequence |
| C17,C18 | heap of counted objects + handles | invariant: counts = number of handles; refinement to plain values |
| C19-C24 | boundary lists | membership function `inside l i` by counting boundaries <= i |
| C25-C27 | parser/generator on byte lists | round trip by mutual induction; refutations by witness |
| C28,C29,C30 | search loops on lists | halving induction |
| C31 | select functions over a strict weak order | against rank in a stable insertion sort |
| C32-C34 | list models | induction |
| C35,C36,C37 | intern table keyed by hash; bump allocator | refinement modulo hash collisions; refutation by a concrete 64-bit FNV collision |
| C38 | std::unique with the less-than predicate | refutation by witness |
| C39,C40 | stack machine on value arrays | compile/evaluate simulation by induction on expressions |
| C41 | fnv fold | equality to spec |
| C42 | iterator = (segment index, element index), UB explicit | invariant over loop steps, for every pattern of empty segments |
| C43,C44 | list models of the container/range calls | induction |
| C45 | the copy_on_write heap with a fault at the allocation or in the copy constructor | case analysis per operation; refuted for a throwing copy constructor |
| C46 | small-step threads over one heap, atomics as single steps | global invariant over all interleavings; projection to the sequential run of each thread |
| C47,C48 | the linked forest of C14 | refinement of reverse/copy/==; reverse refuted for inner ranges |
| C49,C50 | boundary lists as C19 | induction over runs |
| C51 | parser of C25 against an inductive RFC 7159 grammar | soundness/completeness by induction on the parse and on the derivation |
| C52-C54 | escape/unescape over byte lists | induction |
| C55,C56 | virtual machine primitives | case analysis over value types; induction over arguments |
| C57 | recursive descent parser with fuel over token lists | against an inductive grammar with semantic values; fuel bound from length |
| C58 | ring buffer with two slots over a token source | refinement to a cursor (invariant) |
| C59 | binary search of the table | sortedness of the table by computation, then the general search theorem |
| C60 | vector of row pointers | search theorems of C28 lifted |
| C61-C63 | character-level lexer over bytes | against an inductive lexical grammar; position invariant |
| C64 | composition | C61 + C57 + C39 |
| C65-C67 | sheet = cells + relations; dynamic state per cell; update = clear, conditionals, flow, evaluate, notify | counting invariant of flow (count = number of undecided relations of the cell), priority order invariant over histories |
| C68 | as above, get() with its evaluation stack | rank induction: each evaluated cell has its defining value; frame lemmas for every phase |
| C69 | two runs | uniqueness of sorted order without ties, simulation of flow, relational induction on evaluation with contributor sets |
| C70-C72 | notifications as a list of notes | from the "done" record of C68 |
| C73, C74 | the stack formatter of iomanip_asl_cel.cpp over a list of characters; values up to dictionary order (`same`) | the formatter equals a recursive text function; the text reads as lexemes of C61, as an expression of C57, whose meaning is the value; composed with C64. Canonicity: sorting by a total order forgets the order |
| C75-C78 | threads as steps (a critical section is one step): pool queue, workers, task queues, calls in flight, log of effects | invariants over all interleavings: what is queued, on its way and running adds up; a measure for termination |
| C79 | scheduler thread by its program points, heap by the specification of push_heap/pop_heap, clock steps | invariant: a waiter waits for no later than the front, or a notify is on its way |
| C80 | list of (node address, callback), calls in flight; addresses chosen by the allocator | invariant linking the list to the intended reading of the log; refutations by witness (deregistration; a callback that throws) |
| C81 | calls split at the critical section | linearization = order of the sections |
| C82 | the toroid as arrays of links, written cell by cell; recursion and loops with fuel | ring invariants; cover/uncover and purify/unpurify restore the memory exactly; induction on the search |
| C83-C87 | the tree of view proxies with all fields the engine reads and writes; each pass (adjust, solve up/down, layout, outsets, flatten) a function on the tree; doubles a parameter | invariants per pass, induction on the tree, induction on the session; containment derived from an exact specification |
| C88-C90 | the recursive-descent parsers as functions from the tokens left to the calls made, the result and the tokens left; the grammars of the two headers as inductive relations, with the stray tokens the code also takes behind a flag and the handing over of relations as a parameter | soundness by a Hoare-style rule per combinator (calls before an error included), completeness by rewriting along the derivation; composed with the lexer of C61 |
| C91 | the is_... functions of the lexer over the rest of the buffer, get_token with the put-back token and the two flags; tokens as an inductive relation on bytes | each form by induction on its bytes; every place is a token, an error or the end; Reach (where the tokens lead) as the invariant for staying in bounds |
| C92 | the sorted vector with lower_bound, set_union, set_intersection | lower_bound splits a sorted vector; the rest through association lists |
| C93-C95 | the recursive-descent parser as fuelled functions with the lexer state, preorder flag, output and history of calls; the client as functions of the history; concrete syntax trees with every byte, and a relation Render from trees to output and calls | soundness by induction on fuel, completeness by induction on the rendering, bounds by a lexer invariant, termination by a measure on the bytes left |
| C96 | printf %0wx and sscanf %wx (white space, sign, 0x, width) character by character; an inductive definition of UUID text | the written text satisfies the definition, every text that does is read back; digit counting for the undefined case |
| C97 | uuid_compare field by field | equivalence with lexicographic order of the texts, field by field |
| C98 | swab, memory layout on both endiannesses, md5_t as in C08, the stamping | bit lemmas reduce it to RFC 4122 over MD5_Spec; refutations by general theorems on long names and a computed case |
| C99 | the statics and the thread-local state, clock and random numbers as arbitrary inputs, any interleaving of calls | a potential argument (wraps times 65536 plus tick) for one thread; strictly increasing time stamps for several; symbolic run of 2^30 calls for the refutation |
| C100 | variables as raw storage holding a local object, a pointer or nothing; a free store; any program of twelve kinds of statements | simulation: a representation relation between the memory and a list of abstract values is kept by every statement |
| C101 | the same, with moved-from variables (null pointers) | the same simulation for the usable operations; a run for the refutation |
| C102 | the same, with an arbitrary schedule of throwing allocations, copies and moves | case analysis of each statement under the simulation; runs for the refutations |
| C103 | promote, and the conversions to and from double with their ranges | ranges, exactness of integers below 2^53, on top of the simulation |
| C104 | the same; the number of live blocks | part of the representation relation: each block has exactly one owner; an invariant for programs with small types |
| C105 | poly_base with its own assign functions over the same memory | the same simulation, parameterised by the class |
| C106 | the adaptors' decrement functions on the linked nodes | the fullorder word of a forest splits at every position; skipped subtrees are well nested; runs for the refutation |
| C107 | both look-ups on any sorted permutation of the declared table, over lower_bound's model | partition point of C28; strcmp order is a strict total order |
| C108 | apply_layout_parameters statement by statement, outcome Done/Thrown/Undefined | one lemma per statement; the effect record is shown to determine every attribute, idempotence follows |
| C109 | same model, malformed dictionaries | in-bounds parameters keep every statement defined; computed counterexamples |
| C110 | layout_variables over the sorted reserved names or a null table | partition point of C28 |
| C111 | iomanip_xml.cpp over a list of characters, the stack formatter of C73; parser of C93 | formatter equals a recursive text function, which meets the inductive spec `Written`; an inductive notion of well-formed content, translated into the trees of Xml_Spec and handed to C93 |
| C112 | the same | prefix-code argument by induction on the value; escape injective (checked on all byte pairs) |
| C113 | Tok_Model/Tok_Text (iomanip_javascript.cpp, iomanip_pdf.cpp, shared structure), Tok_Spec (readers for the two notations) | induction on the value: what follows is kept by the reader; partial: strings needing escapes and numbers outside 64 bits are refuted |
| C114 | the same, layout relation `Laid` | induction on the value over the stack invariant |
| C115 | Ext_Model (external_model.cpp, str_less_t); histories of calls | invariant relating cells to the history, induction on it |
| C116 | Diag_Model (istream.cpp, istream.hpp) | case analysis on the decomposition of a line; caret refuted for positions after the first character |
| C117 | the same (get_line, is_line_end) | induction on the text; the line relation is deterministic |
| C118 | Xstr_Model (xstring.cpp, xstring.hpp, on Xml_Model) | an inductive relation of filling in, from the spec of the XML trees; sound and complete for the parser with the library's callbacks; the loop's invariant; the id of the first element and empty elements refuted |
| C119 | the same (store, exact_match_exists, glossary_parse) | induction on the trees and on the calls the parser makes; storing a repeated string once refuted |
| C120 | the same (xml_xstr_lookup, element_handler) | induction on the trees; looking a string up refuted: closest_match is disabled |
| C121 | Load_Model (adam_evaluate.cpp) on Decl_Model and Adam_Model; a relation that reads declarations from top to bottom | the sheet agrees with what has been read, step by step, then induction on the calls of the parser; composed with C88 and with reachability, so that the theorems on sheets apply |
| C122 | LayLoad_Model (eve_evaluate.cpp:129-212) on Decl_Model, Adam_Model and update(); a relation of views and calls | the cells as in C121, the views by induction on the tree; composed with C89; that update() ends is not part of it |
| C123 | `update` as in C63-C66. One invariant along get/calculate/evaluate: the pending stack has only names of interface output cells, and (after the flow) every derived cell's term exists, has that index, and yields enough values (`terms_supply`). Induction over expressions, the fuel of `get`, the lists of cells, and the history (`reachable`, including updates that threw). Ends: `flow_ends`. A two-name term with one value is the counterexample without `terms_supply` (`C123_too_few_values`). What a flow that throws leaves behind satisfies the same invariant, so inspect() is covered after any history. |
| C124 | Loops over positions of a list with explicit fuel and checked reads and writes; induction on the fuel with a loop invariant for each. The range is a pair of positions; the overloads for whole ranges and std::bind are not modelled, and std::find_if is modelled as its textbook loop. |
| C125 | An underlying type is a width and a signedness, a value an integer in its range; promotion to a 32-bit int, signed overflow undefined, casts modular. Bits by Z.testbit, the rest by modular arithmetic. Compound assignment is the operator followed by an assignment in the source and is not modelled apart from that. |

Nothing in the list is planned as not applicable.

## Trusted base
* Coq 8.16.1's kernel (and `coqchk`), and its standard library. No axioms: `Print Assumptions` reports
  "Closed under the global context" for every theorem named in MANIFEST.json (each `_Props.v` file ends
  with the commands, or can be checked with them). `vcheck` lists seven constants of
  `Coq.ssr.ssrunder` (`Under_rel` ...): these are the parameters of a sealed module of Coq's own ssreflect
  plugin library; they appear in the environment because it is loaded, and no theorem depends on them.
* No functors, module types, plugins, `Admitted`, `admit`, `Axiom`, section-less `Variable`; no
  `vm_compute` beyond closed-term conversion (used for concrete witnesses and tables).
* The hand translation from C++ to Gallina. Every model definition cites the file and lines it
  models and says where it simplifies. It has not been checked against a compiled program (there is
  none in the sandbox); the mutation log `seeded/LOG.jsonl` shows what the theorems notice.
* The C++ standard library (std::vector, std::sort, std::partition_point, std::list::splice, streams, ...)
  is modelled by its specification, with anything the standard leaves open (order of equal elements,
  hash iteration order, scheduling, allocator failure) as a universally quantified parameter.
* Integers: fixed-width unsigned types are `N`/`Z` modulo 2^k where wrapping is possible;
  std::size_t lengths and iterator differences are `nat` where the code cannot reach 2^64 elements.
  `char` is signed as on x86 where it matters (name hashing, <cctype>). `double` is an abstract record
  of operations (`Vm_Value`, JSON) wherever only its algebra matters.

## What is modelled
| files | modelled | not modelled |
|-------|----------|--------------|
| circular_queue.hpp | all members, raw indices, wrap | putback's iterators, swap |
| unicode.hpp | value_to_utf8/16, to_utf32, copy_utf, converters | iterator category dispatch |
| md5.cpp, sha.hpp | all (bytes and words) | the stream wrappers |
| fnv.hpp | 32/64-bit FNV-1a, sentinel and range forms | 128-1024 bit widths (same code, other constants) |
| name.cpp/hpp, string_pool.cpp | interning map, static names, pool blocks | the once/mutex wrapper; order of names |
| closed_hash.hpp | node table, all links, insert/erase/find/reserve/copy/== | allocator propagation |
| forest.hpp | nodes and edges, all iterators and range adaptors, insert/erase/splice/reverse/insert_parent/copy | |
| copy_on_write.hpp, counter.hpp | heap of counted objects, faults, threads (sequentially consistent atomics) | weak memory orders |
| selection.hpp, selection_algorithms.hpp | all algorithms on boundary lists | |
| algorithm/*.hpp | lower/upper_bound, equal_range, binary_search, sorted, select, median, clamp, pin, rotate, reverse, reduce, gather, erase_if, copy | the one-line range wrappers of std algorithms |
| json.hpp, json_helper.hpp | generator, parser with explicit reads | decimal-to-double conversion (a parameter) |
| expression_filter.cpp | entity_escape/unescape, needs_* | the parse/format filters around them |
| virtual_machine.cpp, conversion.hpp | every operator, built-in function, callbacks, casts | user-installed override operators |
| expression_parser.cpp, lex_stream.cpp, lex_shared.hpp, token.cpp | all productions, all token classes, ring buffer | line-offset bookkeeping beyond positions |
| adam_parser.cpp, eve_parser.cpp | all productions, all callbacks and their arguments, calls made before an error; positions as token numbers | error messages; callbacks that throw; the optional finalize_sheet callback is taken to be there; parse_adam_expression (C57) |
| iterator.hpp | segmented_iterator, segmented ranges | counting_output_iterator, top_iterator |
| table_index.hpp | index operations on sorted/unsorted indexes | transform iterators |
| adam.cpp | add_*, set, touch, update (conditionals, flow, evaluate, notify), get, inspect, operator[], reinitialize, contributing | disconnecting monitors inside notifications; performance attachments |
| future.hpp, future.cpp | thread_pool, timed_queue, shared_task_queue, concurrent_queue; mutexes as atomic sections, condition variables with spurious wake-ups, any number of threads | the promise/future plumbing, exceptions (packaged_task catches them), destructors (never run) |
| dancing_links.hpp, toroid.hpp | construction, set, set_secondary_column, finalize, cover/uncover, purify/unpurify, do_search, both heuristics | `covered_m` and printing, the 512-node blocks (stable addresses), asserts; `char` colours are signed integers (where plain char is unsigned the mark -1 of purify is not negative and unpurify goes wrong) |
| eve.cpp, layout_attributes.hpp, extents.hpp | evaluate, adjust, set_visible, every pass in both directions, visible filtering, two-pass placeables | int overflow; the double computation of proportional items (a parameter; only its range is assumed); `inset_m` (not read), asserts, warnings; theorems C83, C84, C86, C87 are about forms without guides, C85 about guides |
| task.hpp | cancel_state and the token operations on it, callbacks that throw included | the formal data race on the volatile flag |
| xml_lex.cpp, xml_lex.hpp, lex_shared.hpp (lex_base_t), lex_shared_fwd.hpp, xml_parser.hpp, xml_parser.cpp | every token, get/put back, attribute_set_t, is_element, is_content, content_callback, parse_content, parse_document, parse_element_sequence, references | line positions and the text of errors; the output iterator is one that appends; isspace in the C locale |
| zuid.cpp, zuid_uuid.cpp, zuid_sys_dep.cpp/.hpp | both text constructors, str, ==, <, name based and generated identifiers, the per-thread state | get_system_time and the random sources (arbitrary inputs); c_str's shared buffer; the data race on get_current_time's statics (taken as atomic) |
| any_regular.hpp, poly.hpp, conversion.hpp:20-30 | both storage kinds, all constructors, assignments, swap, cast, ==, type_info, empty, assign, promotion; allocation and constructor failures | float; serialisation with a stream; the deprecated poly_regular/poly_copyable concepts (they need a header that does not exist); user defined conversions |
| static_table.hpp:211-252, eve_evaluate.cpp:78-121, 218-376, layout_attributes.hpp:60-95 | look-ups, sort (as any sorted permutation), apply_layout_parameters, layout_variables | extents_m and create_m of the attributes (not touched) |
| iomanip.hpp, iomanip_asl_cel.cpp, any_regular.cpp, array.hpp (operator<<) | the element stack, bags, sequences, atoms, sorted rows | other formats; double-to-text (a parameter) |
| iomanip_xml.cpp | all of it (XmlOut_Model.v) | the text of a double and the name of a type (parameters); the stream stays good |
| iomanip_javascript.cpp, iomanip_pdf.cpp | all of them (Tok_Model.v) | the text of a double and the name of a type (parameters); the stream stays good |
| external_model.cpp/.hpp, string.hpp:53-62 | all of them (Ext_Model.v) | boost::signals2 beyond ordered slots and disconnect; monitors that call the model |
| istream.cpp, istream.hpp | positions, stream_error_t, messages, get_line and is_line_end (Diag_Model.v) | the code under #if 0; the stream's own width |
| xstring.cpp, xstring.hpp | xstring_replace, glossaries, xstring (Xstr_Model.v), over the XML parser's model | thread-local frames and their stack, the copy a debug build stores after a failed look-up, files that are slurped, client predicates and callbacks, serialization |
| adam_evaluate.cpp/.hpp | add_cell, add_relation, bind_to_sheet (Load_Model.v), on the models of the parser and of the sheet | positions, which only decorate error messages; the meaning of the code of an expression is a parameter |
| eve_evaluate.cpp:129-212 | evaluate_named_arguments, add_cell, add_relation, bind_layout (LayLoad_Model.v) | the virtual machine that evaluates the parameters is a parameter and has no side effects on the sheet; what a client returns as position stands for itself |
| numeric.hpp:39-77, algorithm/{iota,filter,find_match,for_each_position,other_of}.hpp | Scan_Model.v | as a range of positions in a list |
| enum_ops.hpp:63-252 | EnumOps_Model.v | the enable_if conditions; int of 32 bits and modular casts are assumed |

## Defects found (theorems ending in _refuted)
C02, C03 (circular_queue copies and compares by raw range), C06 (invalid UTF lead bytes), C11 (sha bit tails),
C19, C20, C21, C49, C50 (selections), C25-C27, C51 (JSON), C29, C30 (== for equivalence; strict is_sorted),
C35 (hash-only interning), C38 (unique), C41 (signed char), C45 (throwing copy constructor), C47
(forest::reverse), C53, C54 (entities), C55 (indexing by number on 64-bit), C59 (end-of-input token), C62, C63
(lexer), C91-C95 (XML), C66, C68-C70, C72 (property model), C73 (CEL serializer), C78 (a pool with no workers when
hardware_concurrency() is 0), C80 (register_callback returns the wrong registration; a callback that throws makes cancel() lose the ones after it). Not expressible as theorems, because the code does not compile when
instantiated: `segmented_iterator::swap/operator=` (`curent_m`), `table_index::count` (`bound_predicate_t`),
`concurrent_queue` for element types outside namespace std (unqualified `move`).

dancing_links: `search(0, ...)` still reports the first solution it meets; a colour given to a cell of a primary column is not ignored as toroid.hpp:140-141 says: the column is purified, never covered, and solutions are lost.

Eve: an item that fills from the right across its container is positioned with its unfilled length and sticks out past the far edge (C83); a proportional item alone in its line gives 0/0, a NaN that is converted to int (C86); adjust() after hiding views never shrinks a container, and children of a container whose child alignment is align_default move at every evaluation (C87). The guide solver need not settle: its limit of (number of views + 1) passes is reached, the assertion at eve.cpp:395 fails and, without assertions, guides are left unaligned, with a balanced row and also with nothing balanced (C85); the second and later guides of a leaf do not push, so they are handed to the leaf smaller than it measured them (C85). Seen in the model, not stated as theorems: a right aligned leaf with a guide in a row double-counts the margin (`rlength -= *guide - front`); a guided leaf behind a filled item snaps back to the measured guide and overlaps it; outsets only grow over adjust() calls.


Declaration parsers (C88-C90): eve_parser.cpp:330,333 clears only the expression of `relation_1` where adam_parser.cpp:404,407 replaces the relation, so the third and later relations of a `relate` in a layout carry the names of the earlier ones (and their comments, where they have none); an `unlink` at the end of an interface section is silently dropped, and so are lead comments before nothing; calls made before a syntax error are not undone; text after a layout is not looked at; the names of sheets and layouts are ignored.


zuid_t (C96, C98, C99): constructing from a text that is not a UUID uses uninitialised variables; names of 65536 bytes and more are cut to their length modulo 65536; nothing is swapped on little endian Macs; a thread that comes back to the same time stamp after the tick count wrapped repeats its last identifier.

any_regular_t and poly_base (C101-C103, C105): a moved-from any_regular_t that held a remote type (std::string, say) has a null pointer but still claims the type, so copying, comparing and casting it are undefined; any_regular_t::assign(T) destroys the old value before it allocates, so after bad_alloc the destructor destroys it again; new_move loses its block if the move constructor throws; cast<int16_t>() of 100000 is an undefined conversion, and 64-bit integers are not promoted, so `any_regular_t(1L) != any_regular_t(1)`; poly_base::assign(const poly_base&) is undefined for x.assign(x) and leaves dead storage if the copy throws; poly_base::assign(const T&) to a moved-from poly with the same remote type follows a null pointer.

filter_fullorder_range (C106): both ends are made with (end, end, p) for the second, so its first_m is end() and stepping back from end() does not filter.

iomanip_xml.cpp (C111): a double is converted to std::int64_t before it is known to fit, which is undefined for 1e19, infinities and NaN; names and keys are written without escaping, so a name with `<` gives text the library's own parser refuses.

iomanip_javascript.cpp, iomanip_pdf.cpp (C113): strings, names and keys are written without escaping, so `['a\', \'b']` and `['a', 'b']` have the same text, as have `(a) (b)` in PDF; the same conversion of doubles to std::int64_t as in the XML serializer.

istream.cpp (C116): the caret below a source line stands one column left of the column in the message, unless that is the first character of the line; without a position it is moved left by the indentation a second time; an exception whose position could not be stored is formatted through front() of an empty vector.

xstring.cpp (C118-C120): closest_match is compiled out and always fails, so xstring never consults the glossary and always answers with the default in the text; xstr_id_harvest tests the distance from begin to begin, so each xstr element replaces the id where the first is meant to keep it; exact_match_exists compares the stored ranges by std::pair's == of pointers, so the same string written twice is stored twice; candidate_parse answers with nothing for elements it does not handle, and the parser puts that in the place of empty elements, so `<br/>` is lost from replacements though `<b>..</b>` is kept.

adam_evaluate.cpp (C121): the initializer of an interface cell can read the cell it initializes, which is empty then, while that of an input cell cannot; bind_to_sheet without an external model leaves add_external_proc_m empty, so a documented external section throws std::bad_function_call and nothing says why; a text that throws leaves the sheet with everything declared before, and with half of the declaration that failed. eve_evaluate.cpp (C122): when the parameters of a view do not come to a dictionary, evaluate_named_arguments throws before pop_back() and leaves their value on the machine’s stack.

adam.cpp (C123): `cell_t::calculate_expression(..).cast<array_t>()[index]` (329-330) is not checked against the length of the array: `relate { a, b <== [c]; c <== a; }` reads past the end of a one-element vector when the flow picks the first term. `C123_too_few_values` gives the sheet; with as many values as names nothing undefined is reached.

enum_ops.hpp (C125): the operands are promoted to int before they are multiplied, so that `a * b` on an enumeration over `uint16_t` is undefined for 65535 * 65535 although the underlying type is unsigned (`C125_promoted_product`).

apply_layout_parameters and layout_variables (C109, C110): `margin: [1, 2, 3]` reads past the array; a number no int holds is converted to int; `spacing: []` followed by `spacing: 7` on the same attributes writes past the vector; `placement: place_row, guide_balance: [@guide_baseline]` leaves the balanced baseline unsuppressed although the comment says it must be; a parameter of the wrong type throws with earlier ones applied; layout_variables dereferences a null pointer if no layout was bound before.

XML (C91-C95): an attribute value that is not closed moves the lexer one past the end of its buffer and the next token is read from outside (C91, C93); character data that begins with `>` or `/>` is read as the end of a tag, so parse_content stops there without an error, as it does at `</` and `<?` (the relation `stops`); a reference without `;` runs to the end of the input and its last byte is dropped; count_collisions compares addresses (C92); a callback that answers with text in which the predicate holds again makes the parser recurse for ever (C93); children that begin with a comment lose the text after it, or the value range starts at a null pointer (C94); text before the root, a missing root and anything after the root are accepted silently by parse_document, comments before the root make it do nothing, and a comment or leading white space silently ends parse_element_sequence (C95); with white space in an end tag (`</a >`) its closing bracket is not echoed (`echoed_close`). Seen while reading, not modelled: std::copy into output_m discards the returned iterator, so only appending iterators work; line positions count only line ends in skipped white space.
