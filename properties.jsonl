{"id": "C01", "title": "parse_str accepts exactly the HCL grammar", "statement": "parse_str(s) returns Ok(body) if and only if s is derivable as body in the declarative (EBNF-style) grammar of configuration files - attributes, blocks, one-line blocks, expressions, comments, whitespace - documented in the crate; every other string is rejected.", "quantifier": "all input strings and all syntax trees", "why_tests_cant": "The set of documents is infinite and recursive (nesting depth, layout); tests sample finitely many of either side of the iff.", "anchors": ["lib/src/parser.rs:config_file,parse_str", "lib/src/parser/body.rs:body,body_element", "lib/src/parser/block.rs:block,one_line_block", "lib/src/parser/expression.rs:expression", "lib/src/parser/object.rs:object", "lib/src/parser/tuple.rs:tuple"]}
{"id": "C02", "title": "Parsing always terminates with a result", "statement": "For every string parse_str, Expression::parse and Value::from_str return (a value, an error, or - see C03 - a panic); no input makes a repetition loop forever.", "quantifier": "all input strings, any nesting depth", "why_tests_cant": "Non-termination on some input cannot be excluded by running finitely many inputs.", "anchors": ["lib/src/parser.rs:parse_str", "lib/src/parser/expression.rs:Expression::parse", "lib/src/value.rs:Value::from_str", "lib/src/utils.rs:take_till_match"]}
{"id": "C03", "title": "Parsing untrusted input never panics", "statement": "parse_str returns Ok or Err on every string and never panics.", "quantifier": "all input strings", "why_tests_cant": "A panic on a rare input shape is exactly what sampling misses.", "anchors": ["lib/src/parser/string.rs:unindent_heredoc,octal_to_string,hex_to_string", "lib/src/parser.rs:parse_str"]}
{"id": "C04", "title": "A successful parse consumed the whole document", "statement": "When parse_str returns Ok no part of the input was skipped; the internal 'Input was not completely parsed' (Error::Bug) outcome is unreachable.", "quantifier": "all input strings", "why_tests_cant": "Universal statement about every input.", "anchors": ["lib/src/parser.rs:config_file,parse_str"]}
{"id": "C05", "title": "Print-parse round trip", "statement": "For every syntax tree built from valid identifiers, number literals, and arbitrary string contents, rendering it to text (any rendering that follows the documented concrete syntax) and calling parse_str gives back the same tree.", "quantifier": "all syntax trees of any size", "why_tests_cant": "Trees are an infinite recursive type.", "anchors": ["lib/src/parser.rs:parse_str", "lib/src/parser/body.rs:Body", "lib/src/parser/expression.rs:Expression"]}
{"id": "C06", "title": "Documents concatenate", "statement": "If d1 parses to b1 and d2 parses to b2 then d1 followed by a newline and d2 parses to b1 followed by b2.", "quantifier": "all pairs of documents", "why_tests_cant": "Quantifies over all pairs of documents; interactions at the seam (comments, heredocs) are unbounded.", "anchors": ["lib/src/parser/body.rs:body", "lib/src/parser.rs:parse_str"]}
{"id": "C07", "title": "Whitespace and comments between tokens do not change the result", "statement": "Inserting or changing spaces, tabs, newlines or comments wherever the syntax allows them does not change what parse_str returns.", "quantifier": "all documents, all layout strings", "why_tests_cant": "Infinitely many layouts at unboundedly many positions.", "anchors": ["lib/src/parser/whitespace.rs:whitespace,inline_whitespace,newline"]}
{"id": "C08", "title": "Source order and duplicates are preserved", "statement": "The body returned by parse_str lists attributes and blocks in source order, duplicates included; the same holds for object elements, tuple elements and block labels.", "quantifier": "all sequences of elements", "why_tests_cant": "Order over sequences of any length.", "anchors": ["lib/src/parser/body.rs:body", "lib/src/parser/object.rs:object_body", "lib/src/parser/tuple.rs:tuple", "lib/src/parser/block.rs:block_labels"]}
{"id": "C09", "title": "Quoted strings round trip", "statement": "Any string whatsoever can be written as a quoted string by escaping backslash and double quote (and, for labels, CR and LF); parsing yields exactly the original characters.", "quantifier": "all strings of Unicode characters", "why_tests_cant": "All strings; the failure mode is a rare character or combination.", "anchors": ["lib/src/parser/string.rs:quoted_string,string_literal,unescape"]}
{"id": "C10", "title": "Escape sequences", "statement": "Each escape sequence denotes the documented character; octal (1-3), \\x (1-2), \\u (1-4), \\U (1-8 hex digits) are read greedily; an unknown escape or one that is not a Unicode scalar value makes the whole parse fail rather than yield a wrong character.", "quantifier": "all digit sequences and all characters after a backslash", "why_tests_cant": "8-digit escapes alone have 2^32 values in every context.", "anchors": ["lib/src/parser/string.rs:unescape,hex_to_unicode,octal_to_string,hex_to_string"]}
{"id": "C11", "title": "Heredocs are taken verbatim", "statement": "The value of an unindented heredoc is exactly the text between the marker line and the first line consisting of optional blanks and the marker, with no unescaping.", "quantifier": "all contents, all markers", "why_tests_cant": "All contents, including ones containing marker prefixes, CRLF and multi-byte characters.", "anchors": ["lib/src/parser/string.rs:heredoc_begin,heredoc_end,heredoc_string", "lib/src/utils.rs:take_till_match"]}
{"id": "C12", "title": "Indented heredocs strip indentation safely", "statement": "For <<-MARKER the indentation of the closing marker is removed from every line; lines with less indentation lose only their own leading spaces; no content makes it panic.", "quantifier": "all contents and indentations", "why_tests_cant": "All line shapes: shorter lines, empty lines, multi-byte characters.", "anchors": ["lib/src/parser/string.rs:unindent_heredoc"]}
{"id": "C13", "title": "Number literals keep their text", "statement": "A number expression keeps exactly the characters written, split in sign, whole part, fraction and exponent; the parser takes the longest literal.", "quantifier": "all number literals and all following text", "why_tests_cant": "Arbitrary precision: unboundedly long literals.", "anchors": ["lib/src/parser/number.rs:number,exponent"]}
{"id": "C14", "title": "Integer conversions are exact or fail", "statement": "as_u8..as_u128 and as_i8..as_i128 of a number expression return exactly the mathematical value written when it is an integer literal (for unsigned types: written without a minus sign) in range of the type and an error otherwise; never a wrapped or truncated value.", "quantifier": "all literals x all ten integer types", "why_tests_cant": "Unbounded literals; off-by-one at each of 20 range bounds.", "anchors": ["lib/src/parser/number.rs:to_number"]}
{"id": "C15", "title": "Number classification", "statement": "is_signed, is_unsigned and is_float classify a literal by its syntax: exactly one of is_signed/is_float holds, is_unsigned implies is_signed and means no minus sign.", "quantifier": "all number literals", "why_tests_cant": "All literals.", "anchors": ["lib/src/parser/number.rs:is_signed,is_unsigned,is_float"]}
{"id": "C16", "title": "Integers convert to numbers and back", "statement": "Number::from(n).as_T() = Ok(n) for every integer n of every integer type T, and the text is what the parser accepts for that number.", "quantifier": "all values of ten integer types", "why_tests_cant": "2^128 values; the extreme negative value is special.", "anchors": ["lib/src/parser/number.rs:from_int,from_uint"]}
{"id": "C17", "title": "Number equality is an equivalence consistent with Hash", "statement": "== on numbers is reflexive, symmetric and transitive, distinguishes numbers of opposite sign and is compatible with Hash (the type implements Eq and Hash).", "quantifier": "all triples of numbers", "why_tests_cant": "Laws over all triples.", "anchors": ["lib/src/parser/number.rs:PartialEq for Number"]}
{"id": "C18", "title": "Identifiers", "statement": "identifier accepts exactly a character of ID_Start or underscore followed by the longest run of ID_Continue or dash.", "quantifier": "all strings, all Unicode tables extending ASCII", "why_tests_cant": "All strings.", "anchors": ["lib/src/parser/identifier.rs:identifier", "lib/src/utils.rs:while_predicate1"]}
{"id": "C19", "title": "Keywords and identifiers", "statement": "true, false and null are literals in value position and ordinary identifiers in key position; a value that merely starts with a keyword (truest) is rejected.", "quantifier": "all identifiers extending a keyword", "why_tests_cant": "All suffixes.", "anchors": ["lib/src/parser/expression.rs:expression", "lib/src/parser/boolean.rs:boolean", "lib/src/parser/null.rs:null", "lib/src/parser/object.rs:object_element_identifier"]}
{"id": "C20", "title": "parse_slice decodes UTF-8 exactly", "statement": "parse_slice(bytes) is an error when bytes are not well-formed UTF-8 and otherwise equals parse_str of the decoded text; in particular parse_slice(s.as_bytes()) = parse_str(s).", "quantifier": "all byte sequences", "why_tests_cant": "All byte sequences.", "anchors": ["lib/src/parser.rs:parse_slice"]}
{"id": "C21", "title": "parse_reader is independent of chunking", "statement": "parse_reader returns what parse_slice returns on the concatenation of everything read (made owned), regardless of how the reader splits it, and an error when the reader fails or the bytes are not UTF-8.", "quantifier": "all byte streams and all ways to split them in reads", "why_tests_cant": "All chunkings, including splits inside a character.", "anchors": ["lib/src/parser.rs:parse_reader"]}
{"id": "C22", "title": "as_owned keeps the content and borrows nothing", "statement": "as_owned returns an equal tree in which no string is borrowed from the input.", "quantifier": "all syntax trees", "why_tests_cant": "All trees.", "anchors": ["lib/src/lib.rs:AsOwned", "lib/src/parser/expression.rs:as_owned", "lib/src/parser/block.rs:as_owned", "lib/src/parser/body.rs:as_owned", "lib/src/parser/object.rs:as_owned", "lib/src/parser/number.rs:as_owned"]}
{"id": "C23", "title": "Expression::parse rejects trailing input", "statement": "Expression::parse(s) is Ok(e) iff the whole of s is one expression denoting e.", "quantifier": "all strings", "why_tests_cant": "All strings.", "anchors": ["lib/src/parser/expression.rs:Expression::parse"]}
{"id": "C24", "title": "Comment forms", "statement": "#, // and /* */ comments are accepted; a # or // comment extends to the end of its line and counts as that line's end; line_comment accepts both line comment forms.", "quantifier": "all comment texts and positions", "why_tests_cant": "All comment texts.", "anchors": ["lib/src/parser/whitespace.rs:hash_comment,slash_comment,inline_comment,line_comment,newline,whitespace"]}
{"id": "C25", "title": "Parentheses are transparent", "statement": "( e ) denotes the same value as e, at any nesting depth.", "quantifier": "all expressions, all nesting depths", "why_tests_cant": "Unbounded nesting.", "anchors": ["lib/src/parser/expression.rs:bracket_expression"]}
{"id": "C26", "title": "Tuple syntax", "statement": "Tuples accept an optional trailing comma; the accepted language is that of the documented EBNF (a lone comma is not a tuple).", "quantifier": "all element lists", "why_tests_cant": "All lists.", "anchors": ["lib/src/parser/tuple.rs:tuple"]}
{"id": "C27", "title": "Object element separators", "statement": "Object elements are separated by a comma or a newline, the last may be followed by the closing brace directly; two elements without a separator are rejected.", "quantifier": "all element lists", "why_tests_cant": "All lists.", "anchors": ["lib/src/parser/object.rs:object_separator,object_body"]}
{"id": "C28", "title": "Every body element ends its line", "statement": "Two attributes or blocks cannot share a line: after an element only inline whitespace, then a newline, line comment or end of input, is accepted.", "quantifier": "all documents", "why_tests_cant": "All documents.", "anchors": ["lib/src/parser/body.rs:body"]}
{"id": "C29", "title": "append adds exactly one block", "statement": "Blocks::append (and BlockBody::append) increases len_blocks by exactly one and leaves every previously stored block in place.", "quantifier": "all reachable collections, all blocks", "why_tests_cant": "All histories of appends.", "anchors": ["lib/src/parser/block.rs:Blocks::append,BlockBody::append,body_to_labels"]}
{"id": "C30", "title": "An appended block is found under its type and labels", "statement": "After append(block), get(block.type, block.labels) finds the block's body among the returned bodies.", "quantifier": "all histories of appends", "why_tests_cant": "All histories; the failing one needs a particular order of label lengths.", "anchors": ["lib/src/parser/block.rs:Blocks::get,BlockBody::get,BlockBody::append"]}
{"id": "C31", "title": "Building Blocks from a list keeps every block", "statement": "Blocks::new(list) / collect contains every block of the list: len_blocks equals the length of the list, and equals appending them one by one.", "quantifier": "all lists of blocks", "why_tests_cant": "All orders of types.", "anchors": ["lib/src/parser/block.rs:Blocks::new,FromIterator"]}
{"id": "C32", "title": "Iteration, counting and lookup agree", "statement": "flat_iter yields exactly len_blocks entries, each reachable by get with its labels, and flat_iter_mut and flat_into_iter yield the same entries. flat_into_iter gives quoted labels as owned text and identifiers as they were kept; len counts the different types and is_empty holds exactly when nothing was appended.", "quantifier": "all reachable collections and all hash map iteration orders", "why_tests_cant": "All histories and all hash orders.", "anchors": ["lib/src/parser/block.rs:flat_iter,flat_iter_mut,flat_into_iter,len_blocks"]}
{"id": "C33", "title": "label_lens is the set of label counts", "statement": "For every non-empty collection, label_lens returns exactly the numbers of labels of the entries yielded by flat_iter. Each number is given once, in increasing order.", "quantifier": "all reachable collections", "why_tests_cant": "All histories.", "anchors": ["lib/src/parser/block.rs:label_lens"]}
{"id": "C34", "title": "label_lens_uniform agrees with label_lens", "statement": "label_lens_uniform returns Some(n) iff every block has exactly n labels (label_lens = {n}).", "quantifier": "all reachable collections", "why_tests_cant": "All histories.", "anchors": ["lib/src/parser/block.rs:label_lens_uniform,is_label_lens_uniform"]}
{"id": "C35", "title": "extend is repeated append", "statement": "extend over two batches is the same as one batch; bodies with the same labels keep their order.", "quantifier": "all batches", "why_tests_cant": "All batches.", "anchors": ["lib/src/parser/block.rs:Extend"]}
{"id": "C36", "title": "Block labels: equality, hashing and string lookup are consistent", "statement": "Equal labels hash equally, and looking a label up by its string finds the label stored (Borrow contract: k1 == k2 iff their strings are equal).", "quantifier": "all labels", "why_tests_cant": "Contract over all pairs of keys.", "anchors": ["lib/src/parser/block.rs:BlockLabel,Hash,Borrow"]}
{"id": "C37", "title": "A labelled collection is never empty", "statement": "No sequence of appends produces a Labels node without labels (documented as a logic error), so has_further_labels, get_labels agree.", "quantifier": "all histories of appends", "why_tests_cant": "All histories.", "anchors": ["lib/src/parser/block.rs:BlockBody::Labels,has_further_labels"]}
{"id": "C38", "title": "Deserialised integers are exact", "statement": "Deserialising a number expression into an integer type yields exactly the literal's value or an error; every literal representable in the target type is accepted.", "quantifier": "all literals, all integer targets", "why_tests_cant": "Unbounded literals.", "anchors": ["lib/src/serde/de/expression.rs", "lib/src/serde/de.rs"]}
{"id": "C39", "title": "Deserialising a body into a map or struct", "statement": "Deserialising a body into a map yields the attributes first, in source order, each under its name with its own value, followed by one entry for each block type (in some order) carrying its blocks (those of the last adjacent run of that type); a repeated attribute is an error.", "quantifier": "all bodies, all value target types, all hash map iteration orders", "why_tests_cant": "All bodies.", "anchors": ["lib/src/serde/de/body.rs"]}
{"id": "C40", "title": "Attribute and block of the same name", "statement": "A body with an attribute and a block of the same name is reported as an error, not a panic.", "quantifier": "all bodies", "why_tests_cant": "All bodies.", "anchors": ["lib/src/serde/de/body.rs"]}
{"id": "C41", "title": "Deserialising objects", "statement": "Deserialising an object yields its elements under their key text, in order; no key form makes it panic.", "quantifier": "all objects", "why_tests_cant": "All objects.", "anchors": ["lib/src/serde/de/object.rs", "lib/src/parser/object.rs:ObjectElementIdentifier::as_str"]}
{"id": "C42", "title": "Option and unit", "statement": "null deserialises to None/(); anything else to Some.", "quantifier": "all expressions", "why_tests_cant": "All expressions.", "anchors": ["lib/src/serde/de/expression.rs"]}
{"id": "C43", "title": "Tuples deserialise element-wise", "statement": "A tuple expression deserialises to a sequence with the same length and order; a fixed-size target of another size is an error.", "quantifier": "all tuples", "why_tests_cant": "All tuples.", "anchors": ["lib/src/serde/de/expression.rs"]}
{"id": "C44", "title": "Borrowed string targets", "statement": "Deserialising a string written in the document into &str succeeds.", "quantifier": "all strings", "why_tests_cant": "All strings.", "anchors": ["lib/src/serde/de.rs", "lib/src/serde/de/expression.rs"]}
{"id": "C45", "title": "Blocks deserialise under their labels", "statement": "Deserialising a body with labelled blocks nests their bodies under the labels, without panicking.", "quantifier": "all bodies", "why_tests_cant": "All bodies.", "anchors": ["lib/src/serde/de/block.rs", "lib/src/serde/de/body.rs"]}
{"id": "C46", "title": "Value::from_str without merging keeps everything", "statement": "Value::from_str(s, None) returns a fully unmerged map with one entry per attribute/block in source order.", "quantifier": "all documents", "why_tests_cant": "All documents.", "anchors": ["lib/src/value.rs:Value::from_str", "lib/src/parser.rs:map_values"]}
{"id": "C47", "title": "Merging yields a merged value with unique keys", "statement": "Successful merge returns a value for which is_merged is true, whose keys are exactly the distinct keys of the input.", "quantifier": "all values", "why_tests_cant": "All values.", "anchors": ["lib/src/value.rs:merge", "lib/src/lib.rs:Mergeable"]}
{"id": "C48", "title": "Merge conflicts are errors", "statement": "Merging fails with IllegalMultipleEntries / ErrorMergingKeys exactly when a key is repeated with scalars or lists or with incompatible kinds.", "quantifier": "all values", "why_tests_cant": "All values.", "anchors": ["lib/src/value.rs:merge"]}
{"id": "C49", "title": "Duplicate block labels are an error in MergeBehaviour::Error mode", "statement": "As documented, duplicate labels between blocks with the same identifier are an error.", "quantifier": "all values", "why_tests_cant": "All values.", "anchors": ["lib/src/value.rs:merge", "lib/src/lib.rs:MergeBehaviour"]}
{"id": "C50", "title": "Merging loses no data", "statement": "A successful merge preserves the number of scalars (len_scalar).", "quantifier": "all values", "why_tests_cant": "All values.", "anchors": ["lib/src/value.rs:merge", "lib/src/lib.rs:ScalarLength"]}
{"id": "C51", "title": "Merging is idempotent", "statement": "Merging a merged value succeeds and changes nothing.", "quantifier": "all values", "why_tests_cant": "All values.", "anchors": ["lib/src/value.rs:merge"]}
{"id": "C52", "title": "Value methods are total", "statement": "len, is_empty, len_scalar, is_merged and is_unmerged do not panic on any value the parser can return.", "quantifier": "all values", "why_tests_cant": "All values.", "anchors": ["lib/src/value.rs:Value"]}
{"id": "C53", "title": "Merge behaviours", "statement": "Every MergeBehaviour variant either works as documented or returns an error.", "quantifier": "all variants and documents", "why_tests_cant": "All documents.", "anchors": ["lib/src/value.rs:from_str", "lib/src/lib.rs:MergeBehaviour"]}
{"id": "C54", "title": "Key: equality, hashing and string lookup are consistent", "statement": "Looking a Key up by its string finds it; keys that are equal as strings are equal keys (Borrow contract).", "quantifier": "all keys", "why_tests_cant": "Contract over all pairs.", "anchors": ["lib/src/parser/literals/key.rs:Key"]}
{"id": "C55", "title": "KeyValuePairs lookups agree", "statement": "get_single, get, indexing and iteration agree: get_single returns the first value iterated with that key; get returns all of them in order; indexing panics exactly when get_single is None.", "quantifier": "all collections, all keys, all hash orders", "why_tests_cant": "All collections.", "anchors": ["lib/src/lib.rs:KeyValuePairs"]}
{"id": "C56", "title": "KeyValuePairs iterators and lengths agree", "statement": "iter, keys, values, into_iter yield len() items in the same order; size_hint is exact; extend adds the given pairs (unmerged) or overwrites (merged).", "quantifier": "all collections", "why_tests_cant": "All collections.", "anchors": ["lib/src/lib.rs:KeyValuePairs", "lib/src/iter.rs"]}
{"id": "C57", "title": "OneOrMany", "statement": "len, is_empty, iter and into_iter agree.", "quantifier": "all values", "why_tests_cant": "All values.", "anchors": ["lib/src/lib.rs:OneOrMany", "lib/src/iter.rs"]}
{"id": "C58", "title": "take_till_match finds the earliest match", "statement": "take_till_match!(p) splits the input at the first position where p succeeds and returns p's result there; it is an error iff p succeeds nowhere.", "quantifier": "all inputs, all child parsers", "why_tests_cant": "Quantifies over parsers.", "anchors": ["lib/src/utils.rs:take_till_match,SafeIndexing"]}
{"id": "C59", "title": "Error classification", "statement": "Each nom error is mapped to the documented crate error: custom codes round trip through u32, everything else becomes ParseError.", "quantifier": "all error codes", "why_tests_cant": "All u32 codes.", "anchors": ["lib/src/errors.rs"]}
{"id": "C60", "title": "Whatever was parsed can be written down and parsed again", "statement": "For every document accepted by parse_str, any rendering of the returned tree in the concrete syntax (strings written quoted) is accepted and gives the same tree again.", "quantifier": "all accepted documents, all renderings", "why_tests_cant": "It ranges over all documents and all renderings of their trees.", "anchors": ["lib/src/parser.rs: parse_str", "lib/src/parser/body.rs: body"]}
{"id": "C61", "title": "The concrete syntax is unambiguous", "statement": "A text denotes at most one tree: no document or expression can be read in two ways.", "quantifier": "all texts and pairs of readings", "why_tests_cant": "Absence of a second reading cannot be tested by examples.", "anchors": ["lib/src/parser.rs: parse_str", "lib/src/parser/expression.rs: Expression::parse"]}
{"id": "C62", "title": "Documents and expressions nest", "statement": "Any document can be used as the body of a block with any type and labels, and any expression text as the value of an attribute, with the same meaning as on its own.", "quantifier": "all documents, expressions, names and label lists", "why_tests_cant": "Compositionality quantifies over all nested contents at any depth.", "anchors": ["lib/src/parser/block.rs: block", "lib/src/parser/attribute.rs: attribute"]}
{"id": "C63", "title": "Every block of a body reaches the target", "statement": "Deserialising a body with unlabelled blocks delivers every one of its blocks to the target under its type, in source order, wherever in the body the blocks are written.", "quantifier": "all bodies, targets and hash map orders", "why_tests_cant": "Depends on how blocks of different types interleave and on hash order.", "anchors": ["lib/src/serde/de/body.rs", "lib/src/parser/block.rs:Blocks::new"]}
{"id": "C64", "title": "Struct targets", "statement": "Deserialising a body into a struct fills each field from the entry of that name, gives None for a missing Option field, is an error for any other missing field, and ignores unknown names.", "quantifier": "all bodies, all structs", "why_tests_cant": "All combinations of fields and names.", "anchors": ["lib/src/serde/de/body.rs"]}
{"id": "C65", "title": "Deserialising ordinary documents never panics", "statement": "Deserialising a body without labelled blocks, without string-like or expression object keys and without an attribute and a block of the same name never panics, for any target type, and deserialisation always ends.", "quantifier": "all bodies, expressions and target types", "why_tests_cant": "All inputs and types.", "anchors": ["lib/src/serde/de.rs", "lib/src/serde/de/body.rs", "lib/src/serde/de/expression.rs", "lib/src/serde/de/object.rs"]}
{"id": "C66", "title": "A self-describing target holds exactly the document's data", "statement": "Deserialising an expression into a self-describing value (as serde_json::Value does) yields precisely the expression's nulls, booleans, numbers, strings, sequences and maps.", "quantifier": "all expressions", "why_tests_cant": "All inputs.", "anchors": ["lib/src/serde/de/expression.rs"]}
{"id": "C67", "title": "The result of merging, in closed form", "statement": "Whenever Value::merge succeeds, its result is fixed, up to the order of tables, by a direct description: every key once, with the single value given, or the concatenation of the objects, or the union of the blocks given under that key, each merged in turn; and whenever that description applies without conflict merge succeeds. Every result the description allows, with any order of its tables, is a possible result, and the error, if any, is the one of the first conflict.", "quantifier": "all values, maps and blocks, any depth", "why_tests_cant": "All inputs and all hash-table orders.", "anchors": ["lib/src/value.rs: Value::merge, MapValues::merge, Block::merge"]}
{"id": "C68", "title": "as_owned of a Value equals it", "statement": "as_owned of a value or map always ends and returns a value equal to the original: same scalars, same order in vectors, same tables.", "quantifier": "all values and maps", "why_tests_cant": "All inputs and hash-table orders.", "anchors": ["lib/src/value.rs: as_owned"]}
{"id": "C69", "title": "Unmerging a merged map and merging it again", "statement": "Unmerging a map obtained by merging and merging it again succeeds and gives back an equal map.", "quantifier": "all maps", "why_tests_cant": "All inputs and hash-table orders.", "anchors": ["lib/src/value.rs: MapValues::unmerge, merge"]}
{"id": "C70", "title": "value::from_str accepts exactly its grammar", "statement": "value::from_str(s, None) returns Ok exactly when s is a document of the (attribute/object/labelled block, comma or newline separated) grammar, and then returns the entries that grammar assigns to it; every other s gives a parse error (never Error::Bug) or the heredoc panic of C03.", "quantifier": "all input strings, any nesting depth", "why_tests_cant": "All strings.", "anchors": ["lib/src/value.rs:from_str", "lib/src/parser.rs:body, map_values, single_value, list, map_expression, attribute"]}
{"id": "C71", "title": "The two parsers agree", "statement": "Whenever parse_str and value::from_str both accept a document, the Value is the translation of the syntax tree: same attributes, same values, blocks without labels as objects, blocks with quoted labels as blocks, in the same order.", "quantifier": "all documents", "why_tests_cant": "All documents, any nesting.", "anchors": ["lib/src/parser.rs:parse_str, body", "lib/src/value.rs:from_str"]}
{"id": "C72", "title": "The command line tool never damages a file it should not", "statement": "`parse IN OUT` only opens OUT for writing after IN was completely read and parsed: if IN cannot be read or does not parse, no file changes and at most one error line is printed; on exit code 0 OUT holds exactly the printed value of IN's original content (also when IN and OUT are the same file) and nothing else changed; in every case only OUT can change, to a prefix of that text.", "quantifier": "all file systems, paths (also aliases), inputs, read schedules, and I/O failures at any point", "why_tests_cant": "All failure points, contents and path aliasings.", "anchors": ["cli/src/main.rs: run_parse, input_reader, output_writer"]}
{"id": "C73", "title": "Exit codes of the command line tool", "statement": "Every run ends with exit code 0, 1 or 101; 101 only if parsing the source panics; a source that value::from_str accepts is never refused by a run whose I/O succeeds.", "quantifier": "all file systems, paths, inputs, schedules", "why_tests_cant": "All inputs and schedules.", "anchors": ["cli/src/main.rs: main, run_parse"]}
{"id": "C74", "title": "--no-merge accepts more", "statement": "Whatever the tool accepts by default it also accepts with --no-merge; documents with a repeated attribute are accepted only with --no-merge.", "quantifier": "all inputs", "why_tests_cant": "All inputs.", "anchors": ["cli/src/main.rs: run_parse", "lib/src/value.rs: from_reader"]}
{"id": "C75", "title": "Equality of parsed documents", "statement": "Two Body (or Expression) values compare equal exactly when they have the same elements in the same order - same attribute and block names, labels (kind and text), keys, strings, booleans and nesting - and their numbers, in order, compare equal as Numbers. Equality is symmetric, an owned copy compares like the original, and a parsed document equals itself exactly if every integer literal in it can be read as a 128 bit integer. (So equality is not reflexive, and it is not transitive: witnesses.) On documents whose numbers are integers within the range of i128 it is 'same structure, same integers'.", "quantifier": "all pairs of syntax trees; all documents", "why_tests_cant": "ranges over all trees and all documents; reflexivity fails only for literals tests do not use", "anchors": ["lib/src/parser/body.rs", "lib/src/parser/expression.rs", "lib/src/parser/object.rs", "lib/src/parser/attribute.rs", "lib/src/parser/block.rs", "lib/src/parser/number.rs: PartialEq"]}
{"id": "C76", "title": "Equality of block indexes", "statement": "Two Blocks built by appending are equal exactly when they hold equal lists of bodies, in order, under the same types and labels; the unspecified order of the hash tables never shows: indexes with the same history compare equal (if their bodies equal themselves) and compare alike to every third one.", "quantifier": "all histories of appended blocks, all table orders", "why_tests_cant": "hash table order is randomised; all histories", "anchors": ["lib/src/parser/block.rs: Blocks, BlockBody (PartialEq), append"]}
{"id": "C77", "title": "Equality of values", "statement": "Values compare by content: vectors in order, merged tables in any order, floats as IEEE 754. A value equals itself exactly when it contains no NaN; what from_str returns contains none, so it equals itself and its as_owned copies. A merged map never equals an unmerged one.", "quantifier": "all values whose tables have distinct keys; all documents accepted by from_str", "why_tests_cant": "all values, all documents, randomised table order", "anchors": ["lib/src/value.rs: Value (PartialEq)", "lib/src/lib.rs: KeyValuePairs (PartialEq)", "lib/src/value.rs: from_str, as_owned"]}
{"id": "C78", "title": "Changes through get_mut, flat_iter_mut and iter_mut hit exactly the addressed blocks", "statement": "get_mut gives a reference exactly when get finds a node; after a change through it, get with the same labels finds the changed node, lookups elsewhere and the other blocks' order, labels and bodies are unchanged, and the number of blocks changes by the difference. Bodies written through flat_iter_mut are those iterated afterwards, in order and under the same labels; no block is created, lost or relabelled. iter_mut changes per type what lookups then see.", "quantifier": "all block indexes (in any table order), label paths, changes and sequences of written bodies", "why_tests_cant": "Quantifies over all trees, paths and mutations; a missed sibling only shows in some shapes.", "anchors": ["lib/src/parser/block.rs:Blocks::get_mut,Blocks::flat_iter_mut,Blocks::iter_mut,BlockBody::get_mut,BlockBody::flat_iter_mut"]}
{"id": "C79", "title": "Value accessors return the content of their variant or name the actual one", "statement": "Every accessor of Value succeeds exactly on its variant and returns its content; otherwise it returns UnexpectedVariant with the type Value, the expected and the actual variant name, and a consuming accessor returns the value unharmed. Mutable accessors change the content only. unwrap_* panics exactly on the other variants. Exactly one is_* predicate holds for a value.", "quantifier": "all values, all changes", "why_tests_cant": "Eight variants times fifteen accessors over unbounded contents.", "anchors": ["lib/src/value.rs:Value::integer,Value::float,Value::boolean,Value::borrow_str,Value::string,Value::list,Value::map,Value::block,Value::is_null,Value::variant_name"]}
{"id": "C80", "title": "Constructors and conversions of values keep everything they are given", "statement": "new_list, new_map, new_single_map, new_block, FromIterator and new_unmerged hold exactly the given items in order, duplicates included and unmerged; a From conversion followed by the accessor of its variant returns the original.", "quantifier": "all item sequences", "why_tests_cant": "Quantifies over all sequences, with duplicate keys.", "anchors": ["lib/src/value.rs:Value::new_list,Value::new_map,Value::new_single_map,Value::new_block,Block::new_unmerged,MapValues::new_unmerged,From", "lib/src/parser/literals/key.rs:Key"]}
{"id": "C81", "title": "Numbers made from floats convert back exactly and are classified", "statement": "Number::from(f) of a finite f32 or f64 converts back (as_f32, as_f64) to exactly f, has its sign and text, is the number the parser reads from this text, and is a float.", "quantifier": "all finite floats of both formats, given Rust's Display of floats", "why_tests_cant": "2^64 inputs.", "anchors": ["lib/src/parser/number.rs:from_float,as_f32,as_f64,is_float"]}
{"id": "C82", "title": "Expressions, object keys and body elements: constructors, conversions and comparisons", "statement": "variant_name names the variant; new_object and new_tuple keep order; an integer made into an expression reads back; an object key equals a text iff it is an identifier spelled so, keys that borrow as the same text are equal and hash alike; an element is either an attribute or a block and from/unwrap are inverse.", "quantifier": "all expressions, keys, elements, integers", "why_tests_cant": "Quantifies over all values; the Borrow contract is about all pairs of keys.", "anchors": ["lib/src/parser/expression.rs:Expression", "lib/src/parser/object.rs:ObjectElementIdentifier", "lib/src/parser/body.rs:BodyElement", "lib/src/parser/block.rs:Block::new_one_line"]}
{"id": "C83", "title": "The contents of a block index are an exact function of the append history", "statement": "After any sequence of appends, the multiset of (label path, body) pairs an index holds is determined by the history alone: each block goes under all of its labels unless, on the way, it leaves the known labels at a node that has others, in which case only the first new label is kept. Iteration yields exactly these pairs, nodes exist exactly at the prefixes of stored paths, each node holds its bodies in append order, and lookup by texts goes to such a node.", "quantifier": "all histories of labelled blocks, all HashMap orders", "why_tests_cant": "Histories are unbounded and the place of a block depends on all earlier ones.", "anchors": ["lib/src/parser/block.rs:BlockBody::append,get,flat_iter,iter"]}
{"id": "C84", "title": "label_lens_uniform is exact", "statement": "label_lens_uniform of a built index is Some(0) when no stored label path is a proper beginning of another, and None otherwise; is_label_lens_uniform says the same.", "quantifier": "all histories, all HashMap orders", "why_tests_cant": "Depends on all pairs of stored paths.", "anchors": ["lib/src/parser/block.rs:label_lens_uniform,is_label_lens_uniform"]}
{"id": "C85", "title": "Blocks::new keeps exactly the last run of every type", "statement": "Blocks::new groups consecutive blocks of one type; for each type in the list the result holds exactly the blocks of the last run of that type. It therefore keeps every block iff the blocks of each type are adjacent.", "quantifier": "all lists of blocks", "why_tests_cant": "Loss depends on the whole arrangement of the list.", "anchors": ["lib/src/parser/block.rs:Blocks::new"]}
{"id": "C86", "title": "Deserialisation errors name their cause", "statement": "Every error deserialisation returns tells the truth about the input: a duplicate-key error names a key that some object of the source really has twice as an identifier, a body duplicate error names an attribute some body really has twice, a tuple-length error carries the length of a tuple of the target type and the different length of a tuple of the source (in that order), a missing-field error names a non-optional field of a struct of the target that some object or body of the source lacks, an integer error means a number without a fractional part outside i64 occurs in the source. For from_str, a parse error is exactly the parser's error, and a float error never happens.", "quantifier": "all target types, all documents, objects and block indexes, all HashMap orders", "why_tests_cant": "Ranges over all targets and documents of any depth; a test can only see that some error came back.", "anchors": ["lib/src/serde/de.rs:Error,from_str", "lib/src/serde/de/expression.rs", "lib/src/serde/de/object.rs:ObjectMapAccess", "lib/src/serde/de/body.rs:MapAccess"]}
{"id": "C87", "title": "Map access follows the serde protocol under any sequence of calls", "statement": "A client of the map access of an object or a body may call next_key, next_value and size_hint in any order. The k-th next_key hands out the k-th entry's key, unless its name was already handed out (duplicate-key error; for a block type: panic) or the entries are used up (None); next_value hands out the value of the last key given if it has not been taken yet and panics otherwise; values may be skipped; a duplicate error leaves a waiting value in place; size_hint is exactly the number of entries not yet asked for. Every call is answered up to the first panic. A client that asks for key and value in turn sees exactly the entries in order, and never panics for want of a value.", "quantifier": "all objects, bodies, HashMap orders and all finite sequences of calls", "why_tests_cant": "Call histories are unbounded; the repository only exercises the alternating one through serde.", "anchors": ["lib/src/serde/de/object.rs:ObjectMapAccess", "lib/src/serde/de/body.rs:MapAccess"]}
{"id": "C88", "title": "The first problem of an object, body or tuple decides the outcome", "statement": "Reading an object, a body or a tuple into any map-like target is decided by its first problem in order: a repeated name gives the duplicate-key error with that name, an element the target cannot read gives that element's own error (or panic), a non-identifier object key panics; later elements have no influence. Either there is no problem or there is such a first one. A struct reports the first declared non-optional field that is absent.", "quantifier": "all objects, bodies and tuples, all map-like targets, all HashMap orders", "why_tests_cant": "Depends on arbitrary prefixes and suffixes around the problem.", "anchors": ["lib/src/serde/de/object.rs:ObjectMapAccess", "lib/src/serde/de/body.rs:MapAccess", "lib/src/serde/de/expression.rs"]}
{"id": "C89", "title": "Exactly which documents panic, fail or parse", "statement": "parse_str and Expression::parse panic exactly on those inputs where the reader, going through well-formed syntax, meets a '<<-' heredoc whose content cannot be unindented as far as its closing marker; what follows that heredoc is irrelevant. Every other input either is in the grammar and yields its tree, or gives a parse error (for Expression::parse, the remaining-input error when an expression is followed by something else).", "quantifier": "all input texts and all Unicode tables", "why_tests_cant": "Both directions range over every document shape and nesting depth.", "anchors": ["lib/src/parser.rs:parse_str", "lib/src/parser/expression.rs:Expression::parse", "lib/src/parser/string.rs:unindent_heredoc"]}
{"id": "C90", "title": "Exactly what value::from_str does on every text", "statement": "Every text is a document of the value grammar, or its reader meets a '<<-' heredoc that cannot be unindented, or neither, and never two of these. A document gives itself without merging, its merge or the merge conflict with MergeBehaviour::Error, and a panic with TakeFirst/TakeLast; meeting a bad heredoc panics for every merge behaviour; everything else is a parse error for every merge behaviour.", "quantifier": "all texts, all merge behaviours, all Unicode tables, all HashMap orders", "why_tests_cant": "Both directions range over every document shape and nesting depth.", "anchors": ["lib/src/value.rs:from_str", "lib/src/parser.rs:body", "lib/src/parser/string.rs:unindent_heredoc"]}
{"id": "C91", "title": "Decimal text is read as the nearest float", "statement": "A number read from a decimal text converts, with as_f32 and as_f64, to the float of that size that is nearest to the exact value of the text: of two equally near ones the one with the even significand, infinity exactly from half a unit above the largest float on, and with the sign of the text even for zero. These conditions leave only one float. value::from_str gives the integer if an i64 can hold it and the nearest f64 otherwise.", "quantifier": "all decimal texts (any number of digits, any exponent), both float formats", "why_tests_cant": "Infinitely many texts lie between two floats; errors show only near ties and at the ends of the range.", "anchors": ["lib/src/parser/number.rs:as_f32,as_f64", "lib/src/parser/literals/number.rs:Number::from_str"]}
{"id": "C92", "title": "What float and byte targets get", "statement": "Deserialising a number into f64 gives the nearest f64 (an integer literal must fit an i64, or it is an error); into f32 the f32 nearest to that f64, or, for an integer literal, to the integer (rounding twice: not always the f32 nearest to the text, witness). A byte buffer gets the UTF-8 encoding of a string or the elements of a tuple read as u8, and nothing else.", "quantifier": "all expressions and decimal texts", "why_tests_cant": "Rounding twice differs from rounding once only for rare texts; all characters and all tuples matter for bytes.", "anchors": ["lib/src/serde/de.rs:deserialize_number,deserialize_string", "lib/src/serde/de/expression.rs"]}
{"id": "C93", "title": "A bad escape sequence ends the reading at once, at its backslash", "statement": "parser::config_file gives Err::Failure - which no alternative recovers from - exactly when, going through well-formed syntax, it meets a quoted value or label with a backslash after which no escape sequence follows (unknown letter, too few digits, a surrogate or a code point above 10FFFF); the failure is recorded at the text right after that backslash, wherever in the nesting of bodies, tuples, objects and parentheses it is. Every document has exactly one of the outcomes body, panic, failure, ordinary error, and each is characterised by the document alone. The parser behind value::from_str behaves the same way.", "quantifier": "all texts", "why_tests_cant": "The bad escape can be anywhere in any document, after any well-formed prefix, inside any nesting.", "anchors": ["lib/src/parser.rs:config_file", "lib/src/parser/string.rs:unescape,quoted_string,string_literal", "lib/src/parser/block.rs:block_label"]}
{"id": "C94", "title": "The key type of a map target", "statement": "Reading anything into a map with char keys gives the map that String keys give if all its keys are single characters, and an error otherwise; into a map with borrowed &str keys only an empty map can be read, everything else is an invalid type error, because keys are handed over as copies.", "quantifier": "all sources (expressions, bodies, blocks), all value types", "why_tests_cant": "All sources of any size with any keys.", "anchors": ["lib/src/serde/de/object.rs", "lib/src/serde/de/body.rs", "lib/src/serde/de.rs"]}
{"id": "C95", "title": "Wrapper and fixed-size targets", "statement": "From an expression a newtype struct is read like the type it wraps. A body can only be read by maps, structs and self-describing targets, not by a newtype or option around them. Of two or more unlabelled blocks of a type, a newtype target reads the first, a tuple or struct target reads one block per component, and surplus blocks are not looked at; a single block is refused by newtypes and tuples; maps and scalars refuse several blocks.", "quantifier": "all target types, all expressions, bodies and numbers of unlabelled blocks", "why_tests_cant": "All target types, any nesting of newtypes, any number of blocks.", "anchors": ["lib/src/serde/de/expression.rs:deserialize_newtype_struct", "lib/src/serde/de/body.rs:forward_to_deserialize_any", "lib/src/serde/de/block.rs:deserialize_any"]}
{"id": "C96", "title": "Equality of numbers that are not both integers", "statement": "Two numbers, not both written as integers, compare equal exactly if the magnitudes of their nearest 64-bit floats are equal (infinities included), or differ by at least 2^-1022 and by less than 2^-52 of their sum rounded to a float. In particular: texts of the same number or of opposite numbers are equal; a difference of at least 2^-1022 below 2^-52 of the greater magnitude is always forgiven, and one of 2^-51 of it never.", "quantifier": "all pairs of number texts", "why_tests_cant": "All pairs of decimal texts; the outcome depends on four roundings near a boundary.", "anchors": ["lib/src/parser/number.rs:PartialEq for Number"]}
{"id": "C97", "title": "Reading a target from a key", "statement": "A map key used as a deserialiser gives its text (whether it was an identifier or a string) to String, byte and self-describing targets, its character to char if it is exactly one, and an invalid type error to every other target, including &str; it never panics.", "quantifier": "all keys and all target types", "why_tests_cant": "All keys and target types.", "anchors": ["lib/src/parser/literals/key.rs:100-130"]}
{"id": "C98", "title": "More text after a document", "statement": "After a document that parses and a line end (a newline or a line comment), parse_str goes on as if the rest stood alone: the result is the elements of the first document followed by those of the rest, or the rest's parse error, or the rest's panic, at the same place. A panic is final: no text after the document takes it back; a bad escape sequence is final unless the text goes on with its digits.", "quantifier": "all documents, line ends and following texts", "why_tests_cant": "All pairs of documents, including broken ones; the seam interacts with every token.", "anchors": ["lib/src/parser.rs:parse_str", "lib/src/parser.rs:config_file"]}
{"id": "C99", "title": "More text after a document, for value::from_str", "statement": "Documents for value::from_str concatenate, separated by any line end: the entries of the first followed by those of the second, and with merging those are merged together. A panic over a heredoc is final whatever text follows and whatever the merge behaviour; so is a bad escape sequence unless its digits go on.", "quantifier": "all documents, line ends, following texts and merge behaviours", "why_tests_cant": "All pairs of documents, including broken ones.", "anchors": ["lib/src/value.rs: from_str", "lib/src/parser.rs: body, map_values"]}
{"id": "C100", "title": "Value methods that walk a value: exact outcome", "statement": "len_scalar and is_empty_scalar count the scalars at any depth and panic exactly when a null is anywhere in the value. is_merged and is_unmerged look through a value in order and stop at the first part that is not merged (not unmerged): they panic exactly when a null comes before it, are true exactly when every collection is a table (a vector) and there is no null, and false otherwise. The same holds for documents and for what a lookup returns (OneOrMany). len and is_empty look at the outermost value only: a scalar has length 1, a list, object or block the number of its entries, and null panics.", "quantifier": "all values and maps, of any nesting, and all orders of their tables", "why_tests_cant": "All values; the panic depends on where in the value the null is.", "anchors": ["lib/src/value.rs:Value", "lib/src/lib.rs:ScalarLength", "lib/src/lib.rs:Mergeable", "lib/src/lib.rs:OneOrMany"]}
{"id": "C101", "title": "The place a parse error names", "statement": "When parse_str fails with a parse error, the text named in it is exactly what follows the longest beginning of the document that is a sequence of complete elements, so no element line, white space or comment begins there; and it fails so exactly when there is such a place and neither a bad heredoc nor a bad escape sequence was met. The same holds for value::from_str with entries and their separators, for every merge behaviour.", "quantifier": "all texts and merge behaviours", "why_tests_cant": "All malformed documents.", "anchors": ["lib/src/parser.rs:config_file", "lib/src/parser.rs:parse_str", "lib/src/value.rs:from_str", "lib/src/errors.rs:from_err_str"]}
{"id": "C102", "title": "from_str::<T> returns a value exactly when the document means it", "statement": "For every target type, serde::de::from_str returns the value that the text means, and returns a value exactly when the text is a document (grammar) that means one: attributes and objects by name without duplicates, of every block type the last run of consecutive unlabelled blocks, one block as a map or a one-element sequence, several as a sequence, numbers exactly, floats the nearest, options None only for null or a missing field, structs by field name or by position, and unknown fields ignored but still read. A document means at most one value of a type, and the iteration order of Rust's HashMap affects nothing but the order of entries of map targets.", "quantifier": "all texts, all target types (scalars, strings, bytes, options, newtypes, sequences, tuples, maps, structs, IgnoredAny, self-describing), all hash orders", "why_tests_cant": "All documents times all types times all hash iteration orders.", "anchors": ["lib/src/serde/de.rs:from_str", "lib/src/serde/de.rs:Deserializer", "lib/src/parser.rs:parse_str"]}
{"id": "C103", "title": "parse_str and Expression::parse do a linear number of calls", "statement": "Whatever the text - accepted, rejected or making the parser panic - parse_str and Expression::parse enter their recursive parsers (an expression, a body) at most once per character of the text, plus once: no text makes the parser backtrack over nested parts again and again.", "quantifier": "all texts, all Unicode tables", "why_tests_cant": "Worst cases over all texts of all lengths; a timing test sees only the texts tried.", "anchors": ["lib/src/parser.rs:parse_str", "lib/src/parser/body.rs:body", "lib/src/parser/expression.rs:expression"]}
{"id": "C104", "title": "Work done by value::from_str", "statement": "value::from_str enters its recursive parsers (a single value, the entries of a map) at most once per character plus once on every text it accepts, for every merge behaviour. On rejected texts there is no such bound, nor any polynomial one: the valid HCL document of n+2 objects nested on one line (a={a={...}}, 4n+8 characters), which parse_str accepts, is rejected by value::from_str only after 10*2^n-2 calls, and unclosed openings a={a={... of n levels take 3*2^n-2.", "quantifier": "all texts, all merge behaviours, all nesting depths", "why_tests_cant": "All texts, and growth as the depth goes to infinity.", "anchors": ["lib/src/value.rs:from_str", "lib/src/parser.rs:map_values", "lib/src/parser.rs:single_value", "lib/src/parser.rs:attribute"]}
{"id": "C105", "title": "How deep the parsers recurse", "statement": "Whatever the text - accepted, rejected or making the parser panic - the number of calls of the recursive parsers under way at once never exceeds the number of opening brackets ([, {, () in the text plus one for Expression::parse, plus two for parse_str, and twice that number plus two for value::from_str. There is no other bound: both parsers accept the document of n+1 nested tuples (2n+4 characters), and need at least n+3 calls at once for it; nothing in the crate limits nesting, so the stack a caller must provide grows with the input.", "quantifier": "all texts, all Unicode tables, all nesting depths", "why_tests_cant": "All texts; and that no depth is refused.", "anchors": ["lib/src/parser/expression.rs:expression", "lib/src/parser/body.rs:body", "lib/src/parser.rs:single_value", "lib/src/parser.rs:map_values"]}
{"id": "C106", "title": "What the fuzz drivers find", "statement": "One run of a fuzz driver (fuzz-afl, fuzz-honggfuzz) on some bytes crashes exactly when the bytes are the UTF-8 encoding of a text in which the reader meets an indented heredoc that cannot be unindented; on all other bytes, valid UTF-8 or not, accepted by the parser or not, it survives. A fuzzing session stops at the first such input, reporting it, and runs forever if there is none. (Stack overflow is left aside: C105.)", "quantifier": "all byte strings, all sequences of inputs, all Unicode tables", "why_tests_cant": "Fuzzing tries finitely many inputs; the claim is about all of them.", "anchors": ["fuzz-afl/src/main.rs:main", "fuzz-honggfuzz/src/main.rs:main", "lib/src/parser.rs:parse_str"]}
{"id": "C107", "title": "An error's text says which error it is", "statement": "Two errors of the crate with the same displayed text are the same error with the same data (for io and UTF-8 causes: the same text of the cause), provided the type and variant names in them are single words, which all names the crate uses are; so the text of a merge error determines key and variants. The same holds for the deserialiser's errors other than Custom, and for the command line tool's errors. A Custom error displays exactly the message it was made from, so it can imitate any other.", "quantifier": "all pairs of errors with all payloads, all texts of causes", "why_tests_cant": "All pairs of messages over all payload strings, including payloads made to look like the fixed text around them.", "anchors": ["lib/src/errors.rs:Error", "lib/src/serde/de.rs:error::Error", "cli/src/error.rs:Error", "lib/src/constants.rs"]}
{"id": "C108", "title": "What the command line tool says", "statement": "When the text on standard input is rejected by value::from_str (a parse error, a bad escape, a key written twice, keys that cannot be merged), every run of `parse` prints exactly one line, 'Error: Parser error: ' followed by the fixed wording for that problem with its key, variants or text, exits with 1 and changes no file; an unknown subcommand does the same with 'Unknown command: NAME'. Every exit with 1 has printed such a line last. Converting errors between the crate's, the deserialiser's and its Compat wrapper loses nothing.", "quantifier": "all texts, all subcommand names and arguments, all file systems, all messages of external errors, all runs", "why_tests_cant": "All texts and environments; and that nothing else is ever printed or written.", "anchors": ["cli/src/main.rs:main", "cli/src/main.rs:run_subcommand", "cli/src/error.rs:Error", "lib/src/serde/de.rs:error::Compat"]}
{"id": "C109", "title": "Which values serde::de::from_str can return", "statement": "The values serde::de::from_str::<T> returns for some text are exactly: for integers those of T within i64; for floats all but NaN; every bool, char, String, borrowed &str and byte string; None, and Some of anything that is not written only as null (never Some(None) or Some(())); all vectors, tuples and structs of such values; maps whose keys are distinct identifiers (and of the key type; no keys at all for &str keys); for self-describing targets the same closure. A whole document must be a map or a struct, whose fields all have identifiers as names or else are options and None.", "quantifier": "all target types built from the supported ones, all values of them, all texts (of Unicode scalar values), all Unicode tables, all orders of visiting blocks", "why_tests_cant": "Both directions are universal: no text whatever gives a value outside the set, and every value of an infinite set has some text.", "anchors": ["lib/src/serde/de.rs:from_str", "lib/src/serde/de.rs:Deserializer", "lib/src/parser.rs:parse_str"]}
{"id": "C110", "title": "How serde::de::from_str fails, exactly", "statement": "serde::de::from_str::<T> returns an error or panics exactly when parse_str does, or when the document, read as a T, meets a first problem, and then with that problem: an integer beyond i64 (ParseIntError); a part of a kind that T does not take (invalid type); an integer outside the target's range, or a string that is not one character for a char (invalid value); the wrong number of elements (TupleLength for tuples, invalid length for blocks and structs by position); a repeated object key or attribute; a map key that does not fit; a missing field that is not an option, the first in the order of the struct; and panics for an object key that is not an identifier, a block type that is also an attribute's name, and blocks with labels. Everything before the first problem (attributes in source order, then block types in the order the hash table gives them) is read without one. A document in the grammar either means a value or fails, with exactly one problem; the order of the hash table can decide which problem, never whether there is one.", "quantifier": "all texts, all target types built from the supported ones, all Unicode tables, all orders of visiting blocks", "why_tests_cant": "The equivalence covers every document, target and hash order: each side has infinitely many cases, and the hash order is different in every process.", "anchors": ["lib/src/serde/de.rs:from_str", "lib/src/serde/de/body.rs:MapAccess", "lib/src/serde/de/object.rs:ObjectMapAccess", "lib/src/serde/de/block.rs:Deserializer", "lib/src/serde/de/expression.rs:Deserializer"]}
{"id": "C111", "title": "Which documents can make a type panic, for any type at all", "statement": "Let a target be any Deserialize implementation that keeps to serde's protocol (it asks for a value only after its key was given, and once); it may call any deserialiser method, read elements and members in any way, recover from errors and stop early. There is such a target whose reading of a text panics exactly when parse_str panics on the text, or it is a document with a hazard: an object key that is not an identifier, a block type that is also the name of an attribute of the same body, or a block with labels in the last run of consecutive blocks of its type - in a part that can be reached (of members with one name only the first, of blocks of one type only the last run). Documents without hazards are safe with every such target; a target that asks for a value first panics on every document; the concrete types of the other properties (integers, floats, strings, options, sequences, tuples, maps, derived structs, newtypes, IgnoredAny, self-describing values) are such targets and read exactly what is said there.", "quantifier": "all texts, all target programs against the serde protocol (also infinite ones) with results of any type, all numbers of steps, all hash orders, all Unicode tables", "why_tests_cant": "Quantifies over every possible Deserialize implementation, which no list of test types covers, and over every document.", "anchors": ["lib/src/serde/de.rs:Deserializer", "lib/src/serde/de/body.rs:MapAccess", "lib/src/serde/de/object.rs:ObjectMapAccess", "lib/src/serde/de/block.rs:Deserializer", "lib/src/serde/de/expression.rs:Deserializer"]}
{"id": "C112", "title": "What no type can tell apart, exactly", "statement": "Two documents without hazards (C111) give the same results for every target type that keeps to the protocol exactly when they look alike: the same attributes and block types by name and order, with alike contents, where integers in the range of i64 are alike when equal, other numbers when they round to the same f64, integers beyond i64 always (all are the same error), strings when equal and both or neither borrowed from the text (only heredocs whose lines need no unindenting are), tuples item by item, objects and bodies member by member, and of a repeated name only its presence counts. Alike documents are read alike by every target, step by step, including targets that break the protocol.", "quantifier": "all pairs of documents, all target programs against the serde protocol with results of any type, all numbers of steps, all hash orders, all Unicode tables", "why_tests_cant": "One direction ranges over all Deserialize implementations; the other needs a distinguishing type for every pair of documents that differ.", "anchors": ["lib/src/serde/de.rs:Deserializer", "lib/src/serde/de/body.rs:MapAccess", "lib/src/serde/de/object.rs:ObjectMapAccess", "lib/src/serde/de/block.rs:Deserializer", "lib/src/serde/de/expression.rs:Deserializer"]}
{"id": "C113", "title": "When readings end, for any type", "statement": "serde::de::from_str ends for every text and every target type that asks finitely many questions of one part whatever the answers are (elements or members asked for beyond the last one included) and passes the same part on, through options and newtypes, only finitely often; it may go on into parts of parts for ever, as recursive types do. The supported concrete types are of this sort. A recursive newtype over an option (struct Loop(Option<Box<Loop>>)) is not, and reading it from any document whose first attribute is not null never ends: both deserialize_newtype_struct and deserialize_option hand on the same part.", "quantifier": "all texts, all target programs against the serde protocol with results of any type, all hash orders, all Unicode tables", "why_tests_cant": "Termination for all Deserialize implementations of a kind and all documents; non-termination cannot be observed by a test either.", "anchors": ["lib/src/serde/de.rs:Deserializer", "lib/src/serde/de/expression.rs:Deserializer", "lib/src/serde/de/body.rs:MapAccess", "lib/src/serde/de/object.rs:ObjectMapAccess"]}
{"id": "C114", "title": "The values value::from_str can return, exactly", "statement": "Without merging, the maps value::from_str can return are exactly the unmerged lists of entries, in any order and with keys repeated at will, where a key is a name or any string, a value is null, a boolean, any i64, any f64 but NaN (infinities and both zeros included), any string, a list of values or an object with one unmerged list of entries, and a block stands only under a name, with one or more labels (any strings) and one body. With MergeBehaviour::Error they are exactly the tables with every key once, where a key may hold several objects (at least one) and a name several blocks with different labels. The merge errors that can come back are exactly: a key (any string) whose first value is of any kind but object or block; anything but an object after an object (a block only if the key is a name); anything but a block after a block under a name. value::from_slice returns the same values.", "quantifier": "all values, all merge errors, all texts and byte strings, all hash orders, all Unicode tables", "why_tests_cant": "That nothing else can come back ranges over all texts; that everything can ranges over all values, of any depth, with every float and every string.", "anchors": ["lib/src/value.rs: from_str, Value, Mergeable", "lib/src/parser.rs: body, map_values, single_value"]}
{"id": "C115", "title": "The token functions of the public parser modules, exactly", "statement": "Called by itself on any text, each public token function (null, boolean, string_literal_content, string_literal, string, heredoc_begin, heredoc_end, heredoc_string, inline_comment, hash_comment, slash_comment, line_comment, inline_whitespace, whitespace, newline) returns a value and a rest exactly when the text begins with that token as the grammar has it, followed by that rest. The white-space functions return one text per comment or run of blanks, as many as there are, and leave exactly the longest white space off; newline needs at least one line end or comment that ends its line. string_literal_content reads up to a quote, a line end or the end of the text. line_comment reads only '#' comments: its two alternatives are the same.", "quantifier": "all texts, all values, all rests, all Unicode tables", "why_tests_cant": "Exactly which prefix is read, and that nothing else is accepted, ranges over all texts.", "anchors": ["lib/src/parser/whitespace.rs:line_comment", "lib/src/parser/whitespace.rs:whitespace", "lib/src/parser/whitespace.rs:newline", "lib/src/parser/string.rs:string_literal_content", "lib/src/parser/string.rs:heredoc_begin", "lib/src/parser/string.rs:heredoc_end", "lib/src/parser/null.rs:null", "lib/src/parser/boolean.rs:boolean"]}
{"id": "C116", "title": "The public functions for expressions, attributes, blocks and bodies, exactly", "statement": "Called by itself on any text, each of expression, tuple, object, bracket_expression, object_element_identifier, object_element, object_begin, object_end, object_separator, object_body, attribute, block_label, block_labels, one_line_block_body, one_line_block, block, body_element, body and config_file returns a value and a rest exactly when the text begins with such a thing of the grammar followed by that rest, where the white space each function skips before and after is all there is of it: objects and parentheses skip white space before themselves, object elements, attributes, blocks and body elements skip blanks and inline comments on both sides. The repeating functions go on until no further item begins where they stand and nothing is met there that cannot be got over. A key that is an expression keeps the white space before it in its text.", "quantifier": "all texts, all values, all rests, all Unicode tables", "why_tests_cant": "Exactly what is read and what is left ranges over all texts, of any nesting.", "anchors": ["lib/src/parser/expression.rs:expression", "lib/src/parser/expression.rs:bracket_expression", "lib/src/parser/tuple.rs:tuple", "lib/src/parser/object.rs:object_element", "lib/src/parser/object.rs:object_body", "lib/src/parser/attribute.rs:attribute", "lib/src/parser/block.rs:block_labels", "lib/src/parser/block.rs:one_line_block", "lib/src/parser/block.rs:block", "lib/src/parser/body.rs:body_element", "lib/src/parser/body.rs:body", "lib/src/parser.rs:config_file"]}
{"id": "C117", "title": "Where each public parser function panics or gives up, exactly", "statement": "Each public parser function panics exactly when, going through well-formed syntax, it meets a '<<-' heredoc that cannot be unindented as far as its closing marker, and returns nom's unrecoverable Failure, holding the text after the backslash, exactly when it meets a bad escape sequence in a quoted text it reads; which places count is given for each function (a label counts only as a one-line quoted text and cannot panic). string_literal_content is an error exactly when the text ends in a lone backslash. The other tokens only succeed or return a recoverable error, and the white-space functions always succeed. None loops.", "quantifier": "all texts, all Unicode tables, every public parser function", "why_tests_cant": "That no other text makes any of the functions panic or give up ranges over all texts.", "anchors": ["lib/src/parser/string.rs:unescape", "lib/src/parser/string.rs:heredoc_string", "lib/src/parser/block.rs:block_labels", "lib/src/parser/object.rs:object_element", "lib/src/parser/body.rs:body_element", "lib/src/parser/tuple.rs:tuple"]}
{"id": "C118", "title": "The most work value::from_str can be made to do", "statement": "For every text, accepted or rejected, the number of times value::from_str enters its recursive parsers (a single value, the entries of a map) is at most (length+1)*2^b, where b is the number of '{' in it; so a text without braces takes at most length+1. A text of at most 2n characters takes fewer than 2^(n+1), and for every n the text a{a{...a{ (n times, 2n characters) takes exactly 2^(n+1)-1: no text of at most that length takes more.", "quantifier": "all texts, all lengths, all Unicode tables", "why_tests_cant": "A worst case over all texts of each length, for all lengths.", "anchors": ["lib/src/value.rs:from_str", "lib/src/parser.rs:map_values", "lib/src/parser.rs:single_value", "lib/src/parser.rs:attribute", "lib/src/parser.rs:map_expression"]}
{"id": "C119", "title": "A document is its tokens: reformatting changes nothing", "statement": "parse_str accepts a text with the tree b exactly when the text is a layout of b - the tokens of one way of writing b, heredocs, parentheses, trailing commas and one-line blocks included - with each gap between tokens filled with something allowed there: any white space and comments, inline white space (not empty between two identifiers), a line end or line comment at the end of an element, a bare line end after a heredoc. So for every accepted document all gaps can be refilled independently without changing the result of parse_str or of serde::de::from_str for any target type; in particular all comments and all but the necessary white space can be removed, which gives a shortest filling.", "quantifier": "all accepted documents, all fillings of all their gaps, all target types", "why_tests_cant": "All documents and all combinations of fillings.", "anchors": ["lib/src/parser.rs:parse_str", "lib/src/parser/whitespace.rs:whitespace", "lib/src/parser/whitespace.rs:inline_whitespace", "lib/src/parser/body.rs:body", "lib/src/parser/object.rs:object_body", "lib/src/parser/tuple.rs:tuple", "lib/src/parser/block.rs:block", "lib/src/serde/de.rs:from_str"]}
{"id": "C120", "title": "The tool's output determines the value", "statement": "Two runs of the command line tool that exit with 0 and write the same bytes were given the same --no-merge choice and read documents with one and the same value (same keys, labels, strings, integers, floats incl. the sign of zero, nesting and order of entries as printed). In general, different parsed values never print as the same {:#?} text, whatever characters their strings contain: quotes, line ends and brackets in strings cannot imitate structure.", "quantifier": "all inputs, file systems and runs of the tool; all values whose floats are not NaN; any choice of which characters the standard library escapes; any float texts that are distinct, not empty and free of blanks, line ends and commas", "why_tests_cant": "a test compares a few outputs; that no two of infinitely many values share a text needs a proof of unique readability for all strings and all nestings", "anchors": ["cli/src/main.rs: run_parse", "lib/src/value.rs: Value (derive Debug)", "lib/src/lib.rs: KeyValuePairs (derive Debug)", "lib/src/parser/literals/key.rs: Key (derive Debug)"]}
{"id": "C121", "title": "What value::from_str reads is its tokens: reformatting changes nothing", "statement": "value::from_str without merging returns m exactly when m is a list of entries and the text is a layout of it - the tokens of one way of writing the entries, commas and line ends between them, heredocs and trailing commas included - with every gap filled with white space and comments allowed there. Refilling the gaps changes nothing, with or without merging: the same value or the same merge error comes out. Every accepted text can be minified to the shortest filling of its layout with the same value.", "quantifier": "all texts, all values, all ways of filling gaps, both merge behaviours", "why_tests_cant": "infinitely many texts and fillings of gaps", "anchors": ["lib/src/value.rs: from_str, Value", "lib/src/parser.rs: body, map_values, single_value, list, attribute", "lib/src/parser/whitespace.rs: whitespace, inline_whitespace, newline"]}
{"id": "C122", "title": "The documents that both parsers accept, exactly", "statement": "parse_str gives the tree b and value::from_str (unmerged) the map m for a text exactly when the text fills the gaps of a common layout of b and the entries of m: no parentheses, object keys that are identifiers or one-line quoted strings, quoted labels, a comma or a line end after every member of an object, one-line blocks only when empty. Refilling the gaps keeps the text acceptable to both, with the same tree and map. Up to heredocs being written as quoted strings, the trees with such a text are those that can be written at all and have a translation; the maps with such a text are those whose document and block keys are names and whose blocks are never inside objects, with every i64, non-NaN float and string possible.", "quantifier": "all texts, trees, maps, and ways of filling gaps", "why_tests_cant": "infinitely many texts, trees and layouts; the common language is defined by two independent grammars", "anchors": ["lib/src/parser.rs: parse_str, body", "lib/src/value.rs: from_str", "lib/src/parser/body.rs: body", "lib/src/parser/block.rs: block", "lib/src/parser/object.rs: object", "lib/src/parser/expression.rs: expression"]}
{"id": "C123", "title": "A part of a document can be edited in place", "statement": "Take any text parse_str accepts. Any expression in its tree - the value of an attribute of any block at any depth, or an element of tuples or objects inside one, at any depth - has a stretch of the text to itself: the expression parser reads exactly that stretch as that expression, and replacing the stretch by any other text that is read as a whole expression gives a text parse_str accepts, whose tree differs there and nowhere else. Likewise any body (the document's or that of a block at any depth), however its elements are cut into consecutive parts, has a stretch of the text that consists of the texts of the parts, each accepted by parse_str on its own with just those elements; and any sequence of accepted documents, each put on lines of its own, can stand there instead, the body then having exactly their elements and everything else being unchanged. So elements can be inserted, removed, moved and replaced textually.", "quantifier": "every accepted text, every place in its tree at any depth, every replacement text", "why_tests_cant": "Ranges over every accepted document, every place in its tree at any depth and every replacement text; tests can only try a few edits.", "anchors": ["lib/src/parser/expression.rs: expression", "lib/src/parser/body.rs: body", "lib/src/parser/block.rs: block", "lib/src/parser/attribute.rs: attribute", "lib/src/parser.rs: parse_str"]}
{"id": "C124", "title": "A part of a text value::from_str reads can be edited in place", "statement": "Take any text value::from_str accepts without merging. Any value in the result - in lists, objects and blocks, at any depth - that is not itself an object or a block has a stretch of the text to itself, and the text of any other value can stand there instead; the result changes there and nowhere else. The entries of any object or block at any depth (and of the whole document), however cut into consecutive parts, occupy a stretch made of the texts of the parts, each accepted by value::from_str on its own; and any accepted texts, each on lines of its own, can stand there instead, the entries then being exactly theirs.", "quantifier": "every accepted text, every place in the result at any depth, every replacement text", "why_tests_cant": "Ranges over every accepted document, every place in its tree at any depth and every replacement text; tests can only try a few edits.", "anchors": ["lib/src/parser.rs: single_value, map_values, body, map_expression, list", "lib/src/value.rs: from_str"]}
{"id": "C125", "title": "Line ends of Unix and of Windows", "statement": "Take any text without carriage returns that parse_str accepts. The same text with a carriage return before every line feed is accepted too, and its tree is the same except that strings (and expressions used as object keys) written over several lines gain carriage returns before some of their line feeds; where none goes over a line end the tree is exactly the same. The same holds for value::from_str without merging. Not the other way round: an indented heredoc with a line of one character is accepted with CR LF but makes the parser panic with LF.", "quantifier": "every accepted text, of any length, with comments, heredocs and strings anywhere in it", "why_tests_cant": "Every token, gap and lookahead of the grammar must be insensitive to the line end, in every combination; tests can only try single files.", "anchors": ["lib/src/parser/whitespace.rs: newline, hash_comment, slash_comment, whitespace", "lib/src/parser/string.rs: heredoc_begin, heredoc_end, heredoc_string, quoted_string", "lib/src/parser/body.rs: body", "lib/src/parser.rs: parse_str, body", "lib/src/value.rs: from_str"]}
{"id": "C126", "title": "The order of attributes and of object members does not matter to typed reading", "statement": "Let two documents differ only in the order in which the attributes of bodies and the members of objects are written, at any depth (attributes may also move past blocks). If serde's from_str reads the first as a value of a type, it reads the second as an equal value of that type (maps have the same entries, which have no order; a type without maps gets the very same value), and if it does not read the first, it does not read the second. In particular lines with attributes can be moved from the beginning of a document to its end. Blocks do not move freely: their order can decide which of them are read.", "quantifier": "every pair of documents rearranged into each other, every target type, every iteration order of the hash maps involved", "why_tests_cant": "The rearrangements of a document grow factorially with its size and can happen at every depth; tests try single orders.", "anchors": ["lib/src/serde/de/body.rs: from_str, build_map_acces_iter, MapAccess", "lib/src/serde/de/object.rs: ObjectMapAccess", "lib/src/serde/de/expression.rs: deserialize_any", "lib/src/parser.rs: parse_str"]}
{"id": "C127", "title": "A document that was cut short", "statement": "Take any beginning of a text (or of the bytes of a text) that parse_str (parse_slice) accepts, as left by an interrupted write or a broken connection. It is either rejected with an error, or accepted with the first elements of the whole document, unchanged, except that if the cut is inside the number of an attribute the last attribute has what is left of that number. It never panics. A cut not right after a digit or a point (for example one that loses whole lines) changes none of the elements it keeps, and for every number of elements there is a cut that keeps just these. A whole expression that is a beginning of another one is a number.", "quantifier": "every accepted text, every place of the cut (also inside a character, a string, a heredoc, a comment or a block)", "why_tests_cant": "A cut can fall at every byte of every document, inside every token and at every depth; no finite set of truncated files covers that.", "anchors": ["lib/src/parser.rs: parse_str, parse_slice, config_file", "lib/src/parser/body.rs: body", "lib/src/parser/number.rs: number", "lib/src/parser/expression.rs: expression"]}
{"id": "C128", "title": "A document for value::from_str that was cut short", "statement": "Take any beginning of a text (or of the bytes of a text) that value::from_str (from_slice) accepts. It is either rejected with an error, or accepted with the first entries of the whole, unchanged, except that if the cut is inside the number of an entry the last entry has the value of what is left of that number. It never panics. A cut not right after a digit or a point changes none of the entries it keeps, and for every number of entries there is a cut that keeps just these. If the whole can be merged, so can every beginning that is accepted: a cut never brings in a conflict.", "quantifier": "every accepted text, every place of the cut, with and without merging", "why_tests_cant": "A cut can fall at every byte of every document, inside every token and at every depth; no finite set of truncated files covers that.", "anchors": ["lib/src/value.rs: from_str, from_slice", "lib/src/parser.rs: map_values, body", "lib/src/parser/literals.rs"]}
{"id": "C129", "title": "Documents and types that evolve", "statement": "A document may hold more than a type asks for. Attributes and members that are not fields of the struct they are read into, at any depth (inside options, newtypes, sequences, tuples, maps and other structs), may be added, removed and changed without effect on the value read, as long as they can be read at all; in particular a line with an attribute whose name is neither a field nor otherwise used can be put between any two parts of a document, or taken out, and a block of a new type can be put at its end. If a document can be read at all, a struct is read field by field: each field has the value it has in the struct with this field only, the order of the fields and what other fields there are do not matter. A field that is an option can be added to a struct: in documents without it, it is None and the rest is unchanged.", "quantifier": "every type, every two documents that are the same for it, every document and every list of fields", "why_tests_cant": "Types, documents and additions at any depth are three unbounded sets; tests add one field to one document.", "anchors": ["lib/src/serde/de/body.rs: from_str, Deserializer", "lib/src/serde/de/object.rs", "lib/src/serde/de/expression.rs", "lib/src/serde/de/block.rs"]}
{"id": "C130", "title": "The order of entries and the merged value", "statement": "Merging does not depend on the order of entries with different keys. If a map, block or document for value::from_str is rearranged - at any depth, entries of maps put in another order, values of the same key keeping their order, and of blocks of the same type only the bodies under the same labels keeping theirs, however they are divided into blocks - then it can be merged exactly if the other can, and the merged values are equal. In particular entries with different keys can be permuted freely, and two documents joined in either order merge to equal values when they share no key but for labelled blocks with different labels. (Which conflict is reported, which of two blocks with the same labels is kept, and the order of the objects of one key do depend on the order.)", "quantifier": "every two values, maps and documents that are rearrangements of each other, at any depth", "why_tests_cant": "The rearrangements of arbitrary nested maps are unbounded; tests merge a few documents written in one order.", "anchors": ["lib/src/value.rs: Value::merge, MapValues::merge, Block::merge, from_str, MergeBehaviour"]}
{"id": "C131", "title": "The deserialiser and value::from_str agree", "statement": "If serde::from_str reads a document for a self-describing target (such as serde_json::Value), value::from_str reads it too, and in every body of it the blocks of one type stand together (attributes may stand between them), then value::from_str with MergeBehaviour::Error succeeds as well and the two results are the same data: the same names, scalars, lists; one map or one unlabelled block as an object, several blocks of one type as the list of their bodies in order, at any depth. (Without the condition they differ: the deserialiser then sees only the last run of blocks of a type, see C31 and C40.)", "quantifier": "every document both read, of any depth and length, in any iteration order of the hash tables", "why_tests_cant": "Two independent readers over all documents; tests compare neither with the other.", "anchors": ["lib/src/serde/de.rs: from_str", "lib/src/serde/de/body.rs: MapAccess", "lib/src/serde/de/block.rs", "lib/src/value.rs: from_str, Value::merge"]}
{"id": "C132", "title": "Expression::parse takes time proportional to the text", "statement": "However the text is nested, and whether it is accepted, rejected or makes the parser panic, Expression::parse takes at most 1000 steps for each character and 300 more, where a step is one character looked at by a parsing primitive (again each time it is looked at, by another alternative or after a retreat) or one use of a primitive. If it succeeds, the characters it has read pay for all steps: what follows the expression costs nothing; and it takes at least one step for each character it has read, as parse_str does for each character of a document it accepts. So no text, such as deep nesting, long comments, keys that are tried as identifiers and then as expressions, or an object member that is read and then given up, makes the reading of an expression quadratic or worse.", "quantifier": "every text: of any length and nesting, accepted or not", "why_tests_cant": "A worst case over all texts: tests time a few of them.", "anchors": ["lib/src/parser/expression.rs: expression", "lib/src/parser/object.rs: object, object_element", "lib/src/parser/tuple.rs: tuple", "lib/src/parser/whitespace.rs", "lib/src/parser/string.rs", "lib/src/parser/number.rs", "lib/src/parser/identifier.rs"]}
