{"id": "C01", "title": "Lossless print of a fully parsed document", "statement": "If TOMLParser::parse returns Full or FullError for a document, then formatting the returned parser with `{}` (when the formatting completes) yields exactly the input text: every byte of whitespace, every comment, every newline style and every literal spelling is reproduced.", "quantifier": "for every input string and both overflow-check settings of the build", "why_tests_cant": "Tests compare a few dozen asset files; the claim is about all strings, including arbitrary nesting, blanks, CRLF/LF mixtures and comments between array items.", "anchors": ["src/lib.rs: TOMLParser::parse, Display for TOMLParser", "src/internals/parser.rs: Parser::parse, Display for Parser", "src/internals/ast/structs.rs: Display for Toml, Expression, TOMLValue, Array, InlineTable", "src/internals/toml.rs", "src/internals/objects.rs", "src/internals/primitives.rs"]}
{"id": "C02", "title": "Printed text is exactly the parsed prefix; Full means everything was parsed", "statement": "Whatever the document, the text printed after parse is a prefix of the input, and the result is Full/FullError exactly when that prefix is the whole input, Partial/PartialError exactly when something non-empty is left over.", "quantifier": "for every input string on which parse and the print complete", "why_tests_cant": "A test can only show particular prefixes; the claim links the result tag and the printed text for all inputs.", "anchors": ["src/internals/parser.rs: Parser::parse (45-75)", "src/types.rs: ParseResult", "src/internals/ast/structs.rs: Display impls"]}
{"id": "C03", "title": "Partial results report the unparsed remainder", "statement": "ParseResult::Partial and ParseResult::PartialError carry the leftover, unparsed input (doc comment of ParseResult).", "quantifier": "for every input that is parsed only partially", "why_tests_cant": "Universal over inputs; existing tests never look at the payload.", "anchors": ["src/types.rs: ParseResult::Partial/PartialError (20-27)", "src/internals/parser.rs: Parser::parse (49, 54, 62-64)"]}
{"id": "C04", "title": "Parsing always terminates and never answers Failure", "statement": "parse terminates on every input and, when it does not panic, its result is one of Full, FullError, Partial or PartialError; Failure is never returned.", "quantifier": "for every input string and every state of the parser it is called on", "why_tests_cant": "Non-termination or a rare Failure path cannot be excluded by running finitely many inputs.", "anchors": ["src/internals/parser.rs: Parser::parse (56)", "src/internals/toml.rs: toml, expression, ws_expr", "src/internals/objects.rs: array_values, inline_table_keyvals_non_empty"]}
{"id": "C05", "title": "Printing a parsed document never panics", "statement": "After any successful parse, formatting the parser with `{}` completes without a panic.", "quantifier": "for every input string on which parse completes", "why_tests_cant": "The panic depends on the syntactic content of the document; tests cover a handful of documents.", "anchors": ["src/internals/ast/structs.rs: Display for InlineTable (753-764), Display for Toml (37-44)", "src/lib.rs: Display for TOMLParser"]}
{"id": "C06", "title": "Parsing never panics", "statement": "parse returns a result (reporting problems through ParseResult/ParseError) instead of panicking, on any input.", "quantifier": "for every input string", "why_tests_cant": "Absence of panics is universal over inputs; the reachable panic sites depend on combinations of table headers.", "anchors": ["src/internals/primitives.rs: get_array_table_key, key_has_children_with_values, insert_keyval_into_map", "src/internals/objects.rs: std_table, array_table, add_implicit_tables", "src/internals/parser.rs: Parser::parse"]}
{"id": "C07", "title": "Reported line number is the line where parsing stopped", "statement": "The line number in Partial/PartialError is the (1-based) line on which parsing stopped, i.e. one more than the number of line ends in the text parsed before that point.", "quantifier": "for every input that is parsed only partially", "why_tests_cant": "Depends on where newlines occur inside nested constructs; universal over documents.", "anchors": ["src/types.rs: ParseResult", "src/internals/util.rs: newline", "src/internals/primitives.rs: count_lines, raw_ml_basic_string, raw_ml_literal_string", "src/internals/objects.rs: ws_newline"]}
{"id": "C08", "title": "A Full parse contains no invalid date-time", "statement": "If parse returns Full (or Partial), every date-time in the parsed document satisfies DateTime::validate; equivalently, every document whose parsed part contains an invalid date-time reports an error.", "quantifier": "for every input string and every date-time occurring anywhere in it (top level, arrays, inline tables)", "why_tests_cant": "Needs all positions and nestings of date-times.", "anchors": ["src/internals/primitives.rs: date_time (583-601)", "src/types.rs: ParseError::InvalidDateTime, DateTime::validate"]}
{"id": "C09", "title": "A Full parse contains no mixed-type array", "statement": "If parse returns Full (or Partial), the elements of every array in the parsed document, at every nesting depth, all have the same type.", "quantifier": "for every input string and every array in it", "why_tests_cant": "Arbitrary nesting, and the error bookkeeping uses a stack that tests exercise at depth one or two only.", "anchors": ["src/internals/objects.rs: array_value (484-525), array (539-549), map_val_to_array_type", "src/types.rs: ParseError::MixedArray"]}
{"id": "C10", "title": "Every mixed array is reported under its own key", "statement": "Every mixed-type array in a document is reported with a MixedArray error carrying the key of that array.", "quantifier": "for every input string and every mixed array in it", "why_tests_cant": "Which error is pushed depends on the errors seen before; universal over documents.", "anchors": ["src/internals/objects.rs: array_value (497-516)", "src/types.rs: ParseError::MixedArray (36-40)"]}
{"id": "C11", "title": "Errors in the result are exactly the parser's accumulated errors", "statement": "FullError/PartialError are returned exactly when at least one error was recorded and they carry the complete, non-empty list; Full/Partial are returned exactly when no error was recorded; parsing never retracts an error reported by an earlier parse with the same parser.", "quantifier": "for every input string and every prior parser state", "why_tests_cant": "Universal over inputs and histories of parses.", "anchors": ["src/internals/parser.rs: Parser::parse (58-74)", "src/internals/primitives.rs: keyval (656-672), insert_keyval_into_map", "src/types.rs: ParseResult"]}
{"id": "C12", "title": "Lookup of key/value lines", "statement": "For a document made of lines `key = value` with pairwise different keys (bare or in double quotes) and scalar values, parse returns Full, get_value(key) returns the written value for every key of the document, and None for every key that is not in it.", "quantifier": "for every list of distinct keys and scalar values, every spacing around `=` and at line ends, LF or CRLF line ends", "why_tests_cant": "Quantifies over unboundedly many documents.", "anchors": ["src/internals/parser.rs: get_value, parse", "src/internals/primitives.rs: keyval, insert_keyval_into_map, get_keychain_key"]}
{"id": "C13", "title": "Duplicate keys: first value wins, every repetition is reported", "statement": "For a document made of lines `key = value` with scalar values, get_value(key) returns the first value given for the key, and the error list is exactly one DuplicateKey(key, line, 0, value) per repeated line, in document order, with the right line number.", "quantifier": "for every list of (bare or quoted key, scalar value) lines with arbitrary repetitions", "why_tests_cant": "Quantifies over all repetition patterns.", "anchors": ["src/internals/primitives.rs: insert_keyval_into_map (286-422)", "src/types.rs: ParseError::DuplicateKey"]}
{"id": "C14", "title": "Children of the document root", "statement": "For a document made of `key = value` lines, get_children(\"\") returns Children::Keys listing each key once, in order of first appearance.", "quantifier": "for every list of (bare or quoted key, scalar value) lines", "why_tests_cant": "Quantifies over all documents of that shape.", "anchors": ["src/internals/parser.rs: get_children (114-128)", "src/internals/objects.rs: Parser::insert", "src/internals/primitives.rs: insert_keyval_into_map (393-420)"]}
{"id": "C15", "title": "Array elements are addressable by index", "statement": "For a line `key = [v0, ..., vn]` of scalars of one type, get_value(key) is the whole array, get_value(\"key[i]\") is vi, get_children(key) is Count(n+1), and indices beyond the end give None.", "quantifier": "for every bare or quoted key, every scalar type, every number of elements", "why_tests_cant": "Unbounded number of elements.", "anchors": ["src/internals/objects.rs: array_value, array", "src/internals/primitives.rs: insert_keyval_into_map", "src/internals/parser.rs: get_value, get_children"]}
{"id": "C16", "title": "Table sections are addressable by table.key", "statement": "For a document made of sections `[table]` with distinct names, bare or in double quotes, each followed by `key = value` lines with distinct keys and scalar values, parse returns Full and get_value(\"table.key\") is the written value; get_children(table) lists the section's keys in order.", "quantifier": "for every list of sections", "why_tests_cant": "Unbounded number of sections and keys; exercises the table bookkeeping across sections.", "anchors": ["src/internals/objects.rs: std_table (218-340), add_implicit_tables, add_to_table_set", "src/internals/primitives.rs: get_full_key, get_array_table_key"]}
{"id": "C17", "title": "Sibling arrays of tables are independent", "statement": "Two arrays of tables with different names are stored under their own names: after `[[a]]` entries, the keys of a following `[[b]]` entry are found under `b[0]`, for any two different names.", "quantifier": "for every pair of different names, bare or in double quotes", "why_tests_cant": "Depends on the relation between the two names (prefix or not); tests use unrelated names.", "anchors": ["src/internals/objects.rs: array_table (343-447)", "src/internals/ast/structs.rs: is_subtable_of (492-507)", "src/types.rs: Children::Count documentation"]}
{"id": "C18", "title": "Setting an unknown key is refused without effect", "statement": "set_value on a key that does not exist in the document, or that exists only as a grouping key without a value, returns false and changes nothing: the printed text, every get_value and every get_children stay the same.", "quantifier": "for every parser state, every such key and every value", "why_tests_cant": "Universal over states and keys.", "anchors": ["src/lib.rs: set_value doc (160-180)", "src/internals/parser.rs: set_value (130-141)"]}
{"id": "C19", "title": "Setting a scalar over a scalar", "statement": "If a key holds a scalar and the new value is a valid scalar, set_value returns true, get_value of that key is then exactly the new value, every other key that holds a scalar keeps its value, and get_children of every key is unchanged.", "quantifier": "for every document, every history of such updates, every key and every valid scalar", "why_tests_cant": "Universal over documents and update histories; relies on no two keys sharing a value cell.", "anchors": ["src/lib.rs: set_value", "src/internals/parser.rs: set_value, same_structure, replace_values"]}
{"id": "C20", "title": "A scalar update touches only the value's own characters", "statement": "If a key that occurs in the printed document holds a scalar and is set to a valid scalar, the new printed text is the old text with exactly the old value's spelling replaced by the new value's spelling; all other characters, including comments and whitespace, are unchanged.", "quantifier": "for every document, every such key and every valid scalar", "why_tests_cant": "Universal over documents; tests check single examples.", "anchors": ["src/lib.rs: set_value doc (format preservation)", "src/internals/parser.rs: replace_values (371-402)", "src/internals/ast/structs.rs: Display impls"]}
{"id": "C21", "title": "Same-structure updates keep all formatting", "statement": "If an array or inline table is set to a value of the same structure (same lengths, same keys in the same order, scalars in the same places, all scalars valid), set_value returns true, get_value returns exactly the new value, and the printed text of the document changes only in the spellings of the scalars: all whitespace, commas and comments inside and outside stay.", "quantifier": "for every document, every array/inline table in it at any nesting depth, every same-structure value", "why_tests_cant": "Arbitrary nesting and formatting.", "anchors": ["src/lib.rs: set_value doc (160-170)", "src/internals/parser.rs: same_structure (260-298), replace_values (371-402)"]}
{"id": "C22", "title": "A refused update leaves the document unchanged", "statement": "If set_value returns false then nothing changed: printed text, all values and all children are as before.", "quantifier": "for every document, key and value", "why_tests_cant": "Universal over documents; failure atomicity is only visible on the failing paths.", "anchors": ["src/internals/parser.rs: set_value (149-156)", "src/lib.rs: set_value doc"]}
{"id": "C23", "title": "Any value can be changed to any other valid value", "statement": "set_value on a key that holds a value, with any valid Value, returns true without panicking (README: modify any value to be any other value of any type).", "quantifier": "for every document, key with a value and every valid value", "why_tests_cant": "Universal over pairs of old and new structures.", "anchors": ["README.md", "src/internals/parser.rs: set_value (157-166), rebuild_vector (300-344), convert_vector (210-227)"]}
{"id": "C24", "title": "Replacing an array by a flat array of another length", "statement": "If a key holds an array of scalars and is set to an array of valid scalars with a different length, set_value returns true, get_value(key) is the new array, get_children(key) is Count(new length), get_value(\"key[i]\") is the i-th new element, and old indices beyond the new length give None; the array is printed as `[v0, v1, ..., vn]` and all text outside it is unchanged.", "quantifier": "for every document, every such key and every list of valid scalars", "why_tests_cant": "Universal over lengths, documents and formatting.", "anchors": ["src/lib.rs: set_value doc (default formatting)", "src/internals/parser.rs: set_value, convert_vector, rebuild_vector, get_all_subkeys"]}
{"id": "C25", "title": "Children after replacing an inline table", "statement": "After set_value replaces an inline table by an inline table with other keys, get_children lists exactly the keys of the new table.", "quantifier": "for every document, key and new inline table of valid scalars", "why_tests_cant": "Universal over old and new key sets.", "anchors": ["src/internals/parser.rs: rebuild_vector (318-337)", "src/internals/parser.rs: get_children"]}
{"id": "C26", "title": "Default formatting of a restructured value", "statement": "A restructured array or inline table is printed with no whitespace after the opening or before the closing bracket/brace, no whitespace before and one space after commas, and one space on both sides of `=` (doc comments of Value's Display and set_value).", "quantifier": "for every restructured flat array or inline table", "why_tests_cant": "Universal over sizes and contents.", "anchors": ["src/types.rs: Display for Value doc (270-273)", "src/internals/parser.rs: convert_vector (184-258)", "src/internals/ast/structs.rs: ArrayValue::default/last, TableKeyVal::default/last, Display for InlineTable"]}
{"id": "C27", "title": "Updates to different keys commute and the last write wins", "statement": "For scalar updates of scalar keys: two updates to different keys give the same document and the same lookups in either order, and two updates to the same key are equivalent to the second one alone.", "quantifier": "for every document, pair of scalar keys and pair of valid scalars", "why_tests_cant": "Universal over states and pairs of operations.", "anchors": ["src/internals/parser.rs: set_value, replace_values"]}
{"id": "C28", "title": "get_value is total on the keys of a document", "statement": "get_value returns Some or None for any string, and never panics, on any parsed document.", "quantifier": "for every document and every key string", "why_tests_cant": "Universal over keys and documents.", "anchors": ["src/lib.rs: get_value", "src/internals/parser.rs: get_value (99-112)", "src/internals/macros.rs: to_val!"]}
{"id": "C29", "title": "A successful update is visible", "statement": "If set_value(key, v) returns true for a scalar v, the printed document contains the change (the text differs whenever the spelling of v differs from that of the old value).", "quantifier": "for every document and every key", "why_tests_cant": "Universal over keys, including table keys.", "anchors": ["src/lib.rs: set_value", "src/internals/parser.rs: set_value, same_structure (296)", "src/internals/objects.rs: std_table (315-325)"]}
{"id": "C30", "title": "Date validation is the proleptic Gregorian calendar", "statement": "For year, month and day strings consisting of decimal digits, Date::validate returns true exactly when they have 4, 2 and 2 digits, the year is 1..9999, the month 1..12 and the day is a day of that month in the Gregorian calendar (leap years: divisible by 4, except centuries not divisible by 400).", "quantifier": "for all triples of digit strings", "why_tests_cant": "Finite but large for valid lengths and unbounded for others; tests sample leap years.", "anchors": ["src/types.rs: Date::validate, validate_numbers (1243-1294), Date::from_str"]}
{"id": "C31", "title": "Date and time fields accept only decimal digits", "statement": "Date::validate, Time::validate and TimeOffsetAmount::validate accept only strings of decimal digits of the documented width (4 for year, 2 for the others).", "quantifier": "for all strings", "why_tests_cant": "Universal over strings; tests use digit strings.", "anchors": ["src/types.rs: Date (1185-1295), Time (1297-1419), TimeOffsetAmount (1099-1183)"]}
{"id": "C32", "title": "Time and offset validation", "statement": "For digit strings, Time::validate holds exactly when hour, minute, second have two digits and are in 0..23, 0..59, 0..59, the optional offset is Z or has hour 0..23 and minute 0..59 in two digits each, whatever the (decimal digit) fraction is.", "quantifier": "for all digit strings", "why_tests_cant": "Unbounded fractions.", "anchors": ["src/types.rs: Time::validate (1378-1418), TimeOffset::validate, TimeOffsetAmount::validate", "src/types.rs: Time.fraction doc (1306)"]}
{"id": "C33", "title": "Integer date constructors", "statement": "date_from_int, datetime_from_int, datetime_zulu_from_int, datetime_offset_from_int and the fractional variants succeed exactly on the numbers that denote a real date, time and offset; the value they build prints in the zero-padded TOML form, which datetime_parse reads back to the same value.", "quantifier": "for all unsigned integers", "why_tests_cant": "Unbounded integer arguments.", "anchors": ["src/types.rs: Value::date_from_int ... datetime_full_from_int (419-795), datetime_parse (843-857)"]}
{"id": "C34", "title": "datetime_parse and Display are inverse", "statement": "If datetime_parse(s) succeeds with v then v prints as s and v.validate() holds; conversely the printed form of every valid date-time whose fields are decimal digits is parsed back to the same value.", "quantifier": "for all strings and all such date-times", "why_tests_cant": "Round trip over an unbounded domain.", "anchors": ["src/types.rs: datetime_parse (843-857), Display for DateTime/Time/Date/TimeOffset", "src/internals/primitives.rs: date_time, date, time, time_offset"]}
{"id": "C35", "title": "Value::int is always a valid TOML integer", "statement": "Value::int(n) passes validate, and the document text `k = <printed value>` is parsed as that same integer.", "quantifier": "for every i64", "why_tests_cant": "2^64 inputs.", "anchors": ["src/types.rs: Value::int (325), validate (947-955)", "src/internals/primitives.rs: integer (425)"]}
{"id": "C36", "title": "validate accepts an Integer or Float only if it is one", "statement": "Value::Integer(s).validate() (and int_from_str) accepts s only if the whole of s is a TOML integer; likewise for Float.", "quantifier": "for all strings", "why_tests_cant": "Universal over strings.", "anchors": ["src/types.rs: validate (949-962), int_from_str, float_from_str", "src/internals/primitives.rs: integer, float"]}
{"id": "C37", "title": "Basic strings: validation and reading back", "statement": "basic_string(s) succeeds exactly when s consists of allowed characters and complete escape sequences, and then the printed value `\"s\"` followed by anything (that does not start with a double quote if s is empty) is read back as exactly that string.", "quantifier": "for all strings s and all following texts", "why_tests_cant": "Universal over strings, escapes and contexts.", "anchors": ["src/types.rs: basic_string (869), validate (965-971)", "src/internals/primitives.rs: quoteless_basic_string (432), raw_basic_string (445), string"]}
{"id": "C38", "title": "Literal strings: validation and reading back", "statement": "literal_string(s) succeeds exactly when s consists of allowed characters (no single quote), and then the printed value `'s'` followed by anything (that does not start with a single quote if s is empty) is read back as exactly that string.", "quantifier": "for all strings s and all following texts", "why_tests_cant": "Universal over strings and contexts.", "anchors": ["src/types.rs: literal_string (907), validate", "src/internals/primitives.rs: quoteless_literal_string (440), raw_literal_string (458), string"]}
{"id": "C39", "title": "Multi-line strings: a validated value reads back", "statement": "If ml_basic_string(s) or ml_literal_string(s) succeeds, the printed value in triple quotes is read back as exactly s.", "quantifier": "for all strings s", "why_tests_cant": "Universal over strings.", "anchors": ["src/types.rs: ml_basic_string (888), ml_literal_string (927), validate (972-988)", "src/internals/primitives.rs: quoteless_ml_basic_string, raw_ml_basic_string, quoteless_ml_literal_string, raw_ml_literal_string"]}
{"id": "C40", "title": "bool_from_str", "statement": "bool_from_str accepts exactly the strings true and false in any letter case, and printing the result gives the canonical lower-case spelling.", "quantifier": "for all strings", "why_tests_cant": "Universal over strings.", "anchors": ["src/types.rs: bool_from_str (395-406), Display for Value"]}
{"id": "C41", "title": "Key combination helpers", "statement": "combine_child_keys(base) on Keys is the list of combine_keys(base, child) in order, on Count(n) the list of combine_keys_index(base, 0..n-1); for a fixed base both helpers are injective in the child.", "quantifier": "for all bases, children lists and counts", "why_tests_cant": "Universal over lists and numbers.", "anchors": ["src/types.rs: combine_keys (186), combine_keys_index (220), combine_child_keys (244)"]}
{"id": "C42", "title": "Printing a Value never panics", "statement": "Formatting any Value with `{}` completes.", "quantifier": "for every Value", "why_tests_cant": "Universal over nested values.", "anchors": ["src/types.rs: Display for Value (274-311)"]}
{"id": "C43", "title": "Printed scalar values are read back after an update", "statement": "If a scalar key of a flat document is set to a valid basic or literal string, boolean, integer built by Value::int or date-time built by the constructors, then printing and parsing the result again gives a Full parse whose get_value(key) is that value, and all other keys read the same as before.", "quantifier": "for every flat document and every such update", "why_tests_cant": "Round trip through text for unboundedly many documents.", "anchors": ["src/lib.rs", "src/internals/parser.rs: set_value, get_value, parse", "src/internals/primitives.rs"]}
{"id": "C44", "title": "Any Unicode text is allowed in comments", "statement": "A comment may contain any Unicode character except line ends: a document consisting of a comment line is parsed Full.", "quantifier": "for every string without control characters", "why_tests_cant": "Universal over Unicode.", "anchors": ["src/internals/util.rs: not_eol (4-6), comment (21-29)"]}
{"id": "C45", "title": "Printing works on any parser", "statement": "Formatting a TOMLParser with `{}` completes for any parser, including one that has not parsed anything.", "quantifier": "for every reachable parser state", "why_tests_cant": "Covers the initial state and all histories.", "anchors": ["src/lib.rs: Display for TOMLParser, TOMLParser::new", "src/internals/ast/structs.rs: Display for Toml (37-44)"]}
{"id": "C46", "title": "Every path inside a value is addressable", "statement": "For a document of key/value lines, `[table]` and `[[table]]` sections with distinct keys, whose values are scalars, arrays of one type and inline tables nested to any depth, parse returns Full, and for every line and every path of indices and keys below it get_value(path) is exactly the value at that path (None if there is none) and get_children(path) is Count of the elements, Keys in order, or Count(0) for a scalar. Conversely get_value finds nothing that is not at such a path.", "quantifier": "for every document of that form (any spacing, comments, line ends), every line and every path", "why_tests_cant": "Unbounded nesting depth, lengths and formatting; the converse quantifies over all strings.", "anchors": ["src/internals/primitives.rs: insert_keyval_into_map, get_full_key", "src/internals/objects.rs: array, inline_table, array_value", "src/internals/parser.rs: get_value, get_children"]}
{"id": "C47", "title": "Children of tables and arrays of tables", "statement": "For the same documents (headers of arrays of tables not continuing the name of the array before, and not repeated after another table), get_children(\"\") lists the top-level names in order, get_children(table) the keys of the table in order, get_children(array) the number of its headers, get_children(\"array[i]\") the keys of its i-th element; and no other key has children.", "quantifier": "for every document of that form", "why_tests_cant": "Unbounded number of sections in any order; the last part quantifies over all strings.", "anchors": ["src/internals/objects.rs: std_table, array_table, add_implicit_tables", "src/internals/primitives.rs: insert_keyval_into_map, get_array_table_key", "src/internals/parser.rs: get_children"]}
{"id": "C48", "title": "Arrays and inline tables written by set_value are read back", "statement": "If the value of a line is replaced by set_value with an array of readable scalars of one type, or with a non-empty inline table of readable scalars under distinct keys, bare or in double quotes, of another shape than the old value, then the printed document differs from the old one only in that value's text, parses again to Full, every path of the new value reads back, and all other keys read the same.", "quantifier": "for every document of lines and sections, every line and every such value", "why_tests_cant": "Round trip through text for unboundedly many documents and values.", "anchors": ["src/internals/parser.rs: set_value, convert_vector, rebuild_vector", "src/internals/ast/structs.rs: Display"]}
{"id": "C49", "title": "Dotted table headers", "statement": "A document of key/value lines and standard table headers [a.b.c] with any number of names, in which no key is given twice in a table, no table has two headers and no key is also a name on the path of a header, parses to Full; every value is found at the dotted name of its table and key (and below it by path), get_children of every table that has a header or is part of the path of one lists its keys and subtables in order of first appearance, and nothing else is found.", "quantifier": "for every such document, every nesting depth and every spacing", "why_tests_cant": "Unboundedly many header orders and depths; implicit tables are created and later opened, and the child lists depend on the whole history.", "anchors": ["src/internals/objects.rs: std_table, add_implicit_tables", "src/internals/primitives.rs: get_array_table_key, key_has_children_with_values, get_full_key, insert_keyval_into_map"]}
{"id": "C50", "title": "Wrong headers and repeated keys are reported and do no harm", "statement": "In a document of key/value lines and standard table headers where some headers are wrong (they repeat a header, run through a key, or open a table inside one that has key/value lines) and some keys are given again (or are the name of a table), the parse reads the whole text; it reports each wrong header with its name, its line and the last value of every key below it, and each repeated key with its name, line and second value, in order; every other line is found as if the faulty ones were not there, and nothing else is found.", "quantifier": "for every such document, any number and order of faults", "why_tests_cant": "Faults and good lines interleave without bound; the last part quantifies over all lookup keys.", "anchors": ["src/internals/objects.rs: std_table", "src/internals/primitives.rs: keyval, insert_keyval_into_map, get_array_table_key, key_has_value, key_has_children_with_values"]}
{"id": "C51", "title": "get-value prints the values", "statement": "tomlkit --get-value with a list of keys, all of which have a value, prints the texts of these values in the order of the keys with the separator between them and writes no file (with --strip-quotes each text loses the quotes at its ends); if a key has no value, the only output is a message naming the first such key, and no further command of the invocation is run.", "quantifier": "for every document, list of keys, option setting and set of further commands", "why_tests_cant": "Unbounded lists of keys over all documents; the second part is about all combinations of commands.", "anchors": ["src/bin/tomlkit.rs: process_document (208-346), get_value (361-386)"]}
{"id": "C52", "title": "has-value and has-children answer for every key", "statement": "tomlkit --has-value and --has-children print for each key, has-value keys first, the label for true or false at the key's position (counted through both lists), or the single label if only one is given; they never crash on any key with a defined lookup as long as there are enough labels, and crash if there are too few.", "quantifier": "for every document, pair of key lists and pair of label lists", "why_tests_cant": "Positions, label lists and documents are unbounded; the boundary (one label, exactly n labels, fewer) holds for every n.", "anchors": ["src/bin/tomlkit.rs: has_value (388-432), has_children (485-543), process_document (258-287)"]}
{"id": "C53", "title": "get-children prints the children", "statement": "tomlkit --get-children prints for each key its child keys between the begin and end strings with the array separator between them (or the number of children first, with --array-length), or the count for arrays; for the first key that is missing or has no children the only output is a message naming it.", "quantifier": "for every document, key list and option setting", "why_tests_cant": "Unbounded key lists and child lists under all option combinations.", "anchors": ["src/bin/tomlkit.rs: get_children (434-483)"]}
{"id": "C54", "title": "Files are written only after every update succeeded", "statement": "tomlkit writes a file only if the document parsed without errors, every command before succeeded and every triple of --set-value was accepted; then the output file (or the input file) holds the printed document with exactly these updates. In all other cases (wrong type name, value that does not parse, refused update, wrong number of fields, document with errors) a message is printed and no file is touched. The contents of the input file are never lost.", "quantifier": "for every document, every combination of commands and options, every list of triples", "why_tests_cant": "A safety claim about all runs; tests only see runs that were thought of.", "anchors": ["src/bin/tomlkit.rs: process_document (208-346), set_value (545-648), write_to_file (348-353)"]}
{"id": "C55", "title": "What one run sets the next run gets", "statement": "If --set-value reports success for a key of a document, then the file written differs from the document only in the text of that value, a following --get-value of the key on that file prints the value, and --get-value of any other keys prints what it printed before.", "quantifier": "for every document, key and accepted value", "why_tests_cant": "Two runs of the tool through a file, over unboundedly many documents and values.", "anchors": ["src/bin/tomlkit.rs: set_value (545-648), get_value (361-386)", "src/internals/parser.rs: set_value, parse"]}
{"id": "C56", "title": "Type names of set-value", "statement": "--set-value stores a value of the type named whose text is the text given: strings with these contents, integers and floats with this spelling, booleans spelled so up to case, date-times printing as this text.", "quantifier": "for every type name and text", "why_tests_cant": "All texts of eight types.", "anchors": ["src/bin/tomlkit.rs: set_value (557-627)"]}
{"id": "C57", "title": "print-doc prints the resulting document", "statement": "With --print-doc the output is that of the run without it, followed by the document and a line end: the input text character by character if there was no --set-value, the contents of the file written if set-value succeeded; after a failed set-value the document printed is the unchanged one.", "quantifier": "for every document and every combination of commands", "why_tests_cant": "Two runs compared over all documents and commands.", "anchors": ["src/bin/tomlkit.rs: process_document (288-346)"]}
{"id": "C58", "title": "strip-quotes gives the contents of strings", "statement": "With --strip-quotes a string value is printed as its contents.", "quantifier": "for every string value of every kind", "why_tests_cant": "All string contents.", "anchors": ["src/bin/tomlkit.rs: get_value (371-375)"]}
{"id": "C59", "title": "quiet suppresses the success messages", "statement": "With --quiet, --set-value does not print Success.", "quantifier": "for every successful set-value", "why_tests_cant": "One run would show the bug; kept because it explains why the quiet branches of the code are dead.", "anchors": ["src/bin/tomlkit.rs: Options::new (146-205), set_value (629-642)"]}
{"id": "C60", "title": "Nested arrays of tables are indexed as TOML defines", "statement": "In a valid document of key/value lines, [tables] and [[arrays of tables]] in which headers name places inside earlier arrays of tables (a header [a.b] or [[a.b]] after [[a]] belongs to the last element of a), to any depth, parsing is Full; every value is found at its indexed address such as fruit[0].variety[1].name, with the paths inside it; every table and every element lists exactly its names in order; every array has the number of its elements; the top lists the names at the top; and nothing else is found.", "quantifier": "for every list of lines, any spacing and comments, any nesting depth and any number of elements", "why_tests_cant": "Depth of nesting, number of elements and order of headers are unbounded; the bookkeeping stacks behave differently for each order.", "anchors": ["src/internals/objects.rs: std_table (218-340), array_table (343-447)", "src/internals/primitives.rs: get_key_parent (46-77), get_array_table_key (80-194), insert_keyval_into_map (286-422)"]}
{"id": "C61", "title": "Equality of public values is exact", "statement": "Value::eq, Date::eq, Time::eq, TimeOffset::eq, TimeOffsetAmount::eq, DateTime::eq and Children::eq hold exactly for equal contents: no field is forgotten, at any nesting depth.", "quantifier": "for all pairs of values", "why_tests_cant": "A forgotten or doubly compared field shows only for pairs that differ in exactly that field.", "anchors": ["src/types.rs: impls of PartialEq"]}
{"id": "C62", "title": "Equality of documents is an equivalence", "statement": "The PartialEq impls of the syntax tree (Toml, TOMLValue, HashValue and everything below) are reflexive, symmetric and transitive.", "quantifier": "for all trees", "why_tests_cant": "Three-way relations over recursive trees have unboundedly many instances.", "anchors": ["src/internals/ast/structs.rs: impls of PartialEq"]}
{"id": "C63", "title": "Documents that compare equal have the same text", "statement": "If two parsed documents compare equal with ==, they print the same text, so they came from the same input.", "quantifier": "for all pairs of documents", "why_tests_cant": "A field that is never compared is found only by a pair that differs there and nowhere else.", "anchors": ["src/internals/ast/structs.rs: impls of PartialEq, Display"]}
{"id": "C64", "title": "Files named on stdin are processed one after the other", "statement": "Without --input-file every line of stdin, stripped of surrounding white space, is a file name; each file is processed in order as if it were alone: the outputs are concatenated, and each file written has the contents of its own run (with --output-file the last one).", "quantifier": "for any number of files, any names, any white space around them, last line with or without a line end", "why_tests_cant": "The number of files and the interplay of reads and writes between them is unbounded.", "anchors": ["src/bin/tomlkit.rs: main (104-130), process_document (208-346), write_to_file (348-353)"]}
{"id": "C65", "title": "The first refused file ends the run", "statement": "If a file cannot be opened, is not well formed or the result cannot be written, its message is the last thing printed, nothing is written for it, later files are neither read nor written, and what was done before stays.", "quantifier": "for any number of files before and after it", "why_tests_cant": "Position of the failing file and the kind of failure combine without bound.", "anchors": ["src/bin/tomlkit.rs: main (104-130), process_document (208-315)"]}
{"id": "C66", "title": "Only set-value changes files", "statement": "A run changes a file only if --set-value is given and the path can be written, and then only the output file or, without one, an input file.", "quantifier": "for every run, with or without --input-file, any stdin, any options", "why_tests_cant": "It is a claim about all files and all runs, including those that panic or stop early.", "anchors": ["src/bin/tomlkit.rs: main (104-130), process_document (208-346), write_to_file (348-353)"]}
{"id": "C67", "title": "Only TOML is accepted", "statement": "Whatever text parse consumes consists of lines of the TOML grammar (keys, scalars, arrays, inline tables, headers, comments), and the syntax tree holds exactly the pieces written there: each key, each scalar with its kind, each separator, in order. A Full result means that the whole input is such a text.", "quantifier": "for every parser state and every input", "why_tests_cant": "Rejecting everything outside the grammar is a claim about all inputs; tests show only some rejected texts.", "anchors": ["src/internals/parser.rs: parse (45-75)", "src/internals/toml.rs (5-78)", "src/internals/objects.rs (197-594)", "src/internals/primitives.rs (425-674)", "src/internals/util.rs (4-29)"]}
{"id": "C68", "title": "A date-time that does not exist is reported with its place", "statement": "In a document of key/value lines and standard table headers (bare or quoted keys, each key and table once, no table opened inside one that has key/value lines, arrays and inline tables on one line), every date-time that does not exist on the calendar or clock, at any depth of arrays and inline tables, is reported as InvalidDateTime with its full key (table, key and path inside the value), its line and its text, whatever other errors come before it; no date-time that exists is reported.", "quantifier": "for every such document and every date-time in it", "why_tests_cant": "Nesting, positions and the errors before it are unbounded; the converse quantifies over all errors of the result.", "anchors": ["src/internals/primitives.rs: date_time (583-601), get_full_key (263-284)", "src/internals/objects.rs: array_value, inline tables"]}
{"id": "C69", "title": "A quoted key and a bare key are different keys", "statement": "The code stores keys as they are written, with their quotes. For every bare key k and scalars v1, v2, the document `k = v1`, newline, `\"k\" = v2` is accepted as Full: get_value(k) is v1, get_value of k between double quotes is v2, and the root has both names as children. (TOML says both lines name the same key; this property records what the code does.)", "quantifier": "for every bare key and every two scalars", "why_tests_cant": "Quantifies over all keys and values; the tests never write one key in both ways.", "anchors": ["src/internals/primitives.rs: key, quoted_key (615-625)", "src/internals/primitives.rs: insert_keyval_into_map (286-422)"]}
{"id": "C70", "title": "An editing session: many updates, then print and read again", "statement": "Read a document, make any sequence of set_value updates of existing values (of whole values or of places inside them) that all succeed, and print. The printed text is the original with only the texts of those values replaced: every blank, comment, line end, header and other value stays, and in a value that keeps its shape only the scalars change. Every update returns true. At the end each key has the value that the updates made of it, and so has every place inside it; all other lookups and children are as before the session. Reading the printed text again succeeds and gives the same values, the same children, and the same for all other keys.", "quantifier": "for every document, every sequence of updates of its values and every layout", "why_tests_cant": "Quantifies over all documents and all update sequences of any length; the existing tests make a few updates on fixed documents and mostly do not read the printed text again.", "anchors": ["src/internals/parser.rs: set_value (130-182), convert_vector, rebuild_vector, replace_values", "src/internals/parser.rs: Display (421-425)", "src/lib.rs: set_value documentation"]}
{"id": "C71", "title": "One run of the tool that sets several keys", "statement": "`tomlkit --set-value k1,v1,t1,...,kn,vn,tn` on a file with a valid document: prints Success n times and writes the document with exactly the texts of those values replaced, each by the text that was given. A later run with --get-value prints the new values and, for all other keys, what it printed before.", "quantifier": "for every document, every number of triples and every layout", "why_tests_cant": "Quantifies over all documents and all sequences of triples; the tool has no tests.", "anchors": ["src/bin/tomlkit.rs: set_value (545-648)", "src/bin/tomlkit.rs: process_document (208-346)", "src/internals/parser.rs: set_value (130-182)"]}
{"id": "C72", "title": "Date-times built from their parts given as text", "statement": "Each of the seven constructors that take the parts of a date-time as strings (date; date and time; with fraction; with Z; with both; with a numeric offset; with fraction and numeric offset): whatever the strings are, the value it returns is valid and prints as the strings next to each other with the separators of a date-time; and if the parts consist of decimal digits, the call succeeds exactly when the parts have the documented widths and name a real date, time and offset, the fraction is not empty and fits into 64 bits and the sign is exactly + or -, and the printed text is read back as the value that was built.", "quantifier": "all strings as parts", "why_tests_cant": "The parts range over all strings; the documentation examples try one call of each constructor.", "anchors": ["src/types.rs:442-449", "src/types.rs:493-503", "src/types.rs:550-560", "src/types.rs:618-635", "src/types.rs:679-691", "src/types.rs:738-750", "src/types.rs:811-828"]}
{"id": "C73", "title": "A printed value is TOML and is read back as itself", "statement": "Printing a Value (Display) gives, for every value that can be printed, the text made of the texts of its parts with `, ` and ` = ` between them. If the scalars in it are spelled as in TOML, the elements of each of its arrays have one type, the keys of its inline tables are key names and different, and no array or inline table in it is empty, the text is a TOML spelling of the value: put after `key = ` it is read completely, and get_value and get_children give the value and everything inside it at the paths where they were. In particular a value taken from one document can be printed into another one.", "quantifier": "all values of any depth and width, all key names", "why_tests_cant": "Values are trees of unbounded depth; the tests print single values.", "anchors": ["src/types.rs: Display for Value (274-311)", "src/internals/primitives.rs: val (638-648)", "src/internals/parser.rs: get_value (99-112)"]}
{"id": "C74", "title": "Walking through a document reaches exactly its keys", "statement": "After a document has been read to its end: starting with the children of the root and taking, with combine_child_keys, the children of every key found, one finds exactly the keys that the parser knows; in particular every key for which get_value returns a value is found.", "quantifier": "all documents that are read to the end, walks of any length", "why_tests_cant": "Needs reachability: walks of any length in documents of any size.", "anchors": ["src/internals/parser.rs: get_children (114-128)", "src/types.rs: combine_child_keys (244-267)", "src/internals/primitives.rs: insert_keyval_into_map (286-422)", "src/internals/objects.rs: std_table (218-340), array_table (343-447)"]}
{"id": "C75", "title": "One name is not both a table and an array of tables", "statement": "If a document has a table or a key with some name, a later header of an array of tables with that name is reported as an invalid table, with the name and the line of the header, and after all reports of the lines before it; and if it has an array of tables with some name, a later table header with that name is reported. Nothing below the wrong header is stored.", "quantifier": "all documents of key/value lines and table headers, also with faults, all names of one or more parts, any text after the wrong header", "why_tests_cant": "The report depends on everything read before; the tests have one document with such a header.", "anchors": ["src/internals/primitives.rs: get_array_table_key (80-194)", "src/internals/objects.rs: array_table (343-447), std_table (218-340), add_implicit_tables (78-157)"]}
{"id": "C76", "title": "Later text does not change what was read", "statement": "Whatever text follows a document, the values of its keys and of the elements inside them are the same as without that text, its tables keep all their children, and everything reported about it stays reported, in the same order and with the same line numbers.", "quantifier": "all documents of key/value lines and dotted table headers, also with faults; any text from a new line on, valid or not, that the parser reads without a panic", "why_tests_cant": "The text that follows is arbitrary: repeated keys, headers with the same names, arrays of tables through existing keys, or no TOML at all.", "anchors": ["src/internals/objects.rs: add_implicit_tables (78-157), std_table (218-340), array_table (343-447)", "src/internals/primitives.rs: insert_keyval_into_map (286-422), get_array_table_key (80-194)", "src/internals/parser.rs: parse (45-75), get_value (99-112), get_children (114-128)"]}
{"id": "C77", "title": "Overflow checks do not change results", "statement": "If a build with overflow checks parses a text without a panic, a build without them gives the same result, errors, document, values and children, and every later update behaves the same in both. A run of tomlkit that does not crash in a build with checks has the same output, leaves the same files and ends in the same way in a build without.", "quantifier": "all texts, all keys and values of updates, all options, commands, files and inputs of the tool", "why_tests_cant": "Tests run in one build profile; that the other never gives a different answer is a statement about all inputs in both.", "anchors": ["src/internals/primitives.rs: get_array_table_key (80-194), the subtraction in line 159", "src/internals/parser.rs: parse (45-75), set_value (130-182)", "src/bin/tomlkit.rs: main (33-130), process_document (208-346)"]}
{"id": "C78", "title": "A parser can be used again", "statement": "Parsing a text with a parser that has parsed other texts gives the same document, printed text and text left over as with a new parser, and the same values, children, errors and line numbers.", "quantifier": "all texts; all states of the parser, in particular those that earlier texts leave behind", "why_tests_cant": "The states that earlier texts leave behind are unbounded, and a difference shows only for some combinations of texts.", "anchors": ["src/internals/parser.rs: parse (45-75), new (32-43)", "src/internals/toml.rs: toml (5-14), expression (28-35)", "src/internals/primitives.rs: val (638-648), keyval (650-674), insert_keyval_into_map (286-422)"]}
{"id": "C79", "title": "Every value that is found is written in the document", "statement": "After parsing any text, every value that get_value finds is printed: its scalars stand in the printed document, in their order, at one place that belongs to the key, and a scalar is all that stands there. This stays so after any number of updates that keep the structure of values and any number of refused updates, and every such update changes the printed text at that place only.", "quantifier": "all texts, complete or not; all keys; all sequences of updates that keep the structure of values or are refused", "why_tests_cant": "The keys that the parser makes up while it reads nested values are unbounded, and a key whose value is not shared with the document looks right until it is set and printed.", "anchors": ["src/internals/primitives.rs: insert_keyval_into_map (286-422), keyval (650-674), val (638-648)", "src/internals/objects.rs: array_value (484-525), inline tables (566-594), std_table (218-340), array_table (343-447)", "src/internals/parser.rs: get_value (99-112), set_value (130-182), replace_values (371-402)"]}
{"id": "C80", "title": "What set_value ends in", "statement": "On a key that holds a value, set_value returns true exactly for valid values that have the structure of the old value or are arrays or inline tables of scalars, and then the new value is found; it returns false exactly when the first scalar of the new value that is not valid is outside of inline tables; in all other cases it panics. (Left out: values with a name given twice, and new nested values at keys that the parser knows but does not list.)", "quantifier": "all parsers after any number of parses and updates, all keys that hold a value, all values, nested to any depth", "why_tests_cant": "Values are nested without bound and the outcome depends on the order of valid and invalid scalars anywhere inside.", "anchors": ["src/internals/parser.rs: set_value (130-182), convert_vector (184-258), same_structure (260-298), rebuild_vector (300-344), get_all_subkeys (346-369), replace_values (371-402)"]}
{"id": "C81", "title": "A text of the form of TOML is read to its end", "statement": "If every line of a text has the form that TOML prescribes - key and value, table header, header of an array of tables, comment or nothing; scalars, arrays and inline tables nested to any depth - then parsing with any parser ends with Full or FullError and nothing left over, and the tree has one expression for each line, with the names, values, blanks, comment and line end of that line. Names that are repeated, arrays of several types, date-times that do not exist and headers that contradict each other may lead to errors (or to the panics of C06) but never to a Partial result.", "quantifier": "all parser states, all documents of that form, of any number of lines and depth of values", "why_tests_cant": "Documents, their layout and the states a parser can be in are unbounded; errors found in one line change the state that the next lines are read in.", "anchors": ["src/internals/toml.rs: 5-78", "src/internals/primitives.rs: 425-674", "src/internals/objects.rs: 197-340, 343-594", "src/internals/parser.rs: parse (45-75)"]}
{"id": "C82", "title": "Updates leave a document in the form of TOML", "statement": "After reading a text of the form of TOML (C81), with or without errors, and any calls of set_value with values that have the form of TOML values, accepted or refused, of the same or another structure, what is printed again has the form of TOML: the same lines, in which only values differ. Reading it with any parser does not stop early, and gives, line by line, the values that the document in memory has.", "quantifier": "all parser states, all documents of that form, all sequences of keys and well-spelled values", "why_tests_cant": "Documents, nesting, and sequences of updates are unbounded, and every update changes the tree that the next one works on.", "anchors": ["src/internals/parser.rs: 130-182, 184-258, 260-298, 371-402, 421-425", "src/internals/ast/structs.rs: 37-44, 103-116, 242-262, 617-680, 705-764", "src/internals/toml.rs: 5-78"]}
{"id": "C83", "title": "Layout has no influence on what is read", "statement": "Two texts of the form of TOML (C81) that have the same keys with the same values and the same headers, in the same order, but differ in blanks, comments, empty lines, line ends, trailing commas, and the blanks, comments and line ends inside arrays, inline tables and headers, are read alike by a parser in any state: either both panic, or both give the same value and the same children for every key and the same errors except for their line numbers.", "quantifier": "all parser states, all pairs of documents of that form with the same content", "why_tests_cant": "There are infinitely many layouts of every document; one has to know that no step of the reading depends on the layout consumed by the steps before it.", "anchors": ["src/internals/toml.rs: 5-78", "src/internals/primitives.rs: 46-422, 627-674", "src/internals/objects.rs: 29-447, 450-594", "src/internals/parser.rs: 45-75, 99-128"]}
{"id": "C84", "title": "Values have no influence on what else is read", "statement": "Two texts of the form of TOML (C81) with the same keys and headers, in the same order, whose values have the same structure but other scalars in it, of the same or another type, and which have faults (elements of another type than the one before, dates that do not exist) at the same places, are read in step by a parser in any state, whatever the layout: either both panic, or both know the same keys, with the same children, the value of a key in one has the structure of its value in the other, and both report the same errors for the same keys, in the same order.", "quantifier": "all parser states, all pairs of documents of that form whose values have the same structure", "why_tests_cant": "Infinitely many values fit into every place of every document; one has to know that no step of the reading looks at the scalars that were read before.", "anchors": ["src/internals/toml.rs: 5-78", "src/internals/primitives.rs: 46-422, 627-674", "src/internals/objects.rs: 29-447, 450-594", "src/internals/parser.rs: 45-75, 99-128"]}
{"id": "C85", "title": "What is printed after updates is read again as it is in memory", "statement": "After reading a text of the form of TOML (C81), with or without errors, with a new parser, and any calls of set_value that keep the structure and the types of values, or are for keys without a value, reading what is then printed with a new parser does not stop early or panic: every key has the value and the children that it has in the parser in memory, and the errors are the same but for line numbers and the values that they name. The types may change too, if elements of another type than the one before are at the same places in the end.", "quantifier": "all documents of that form, all sequences of keys and well-spelled values", "why_tests_cant": "Documents and sequences of updates are unbounded; one has to know that the map of keys, which the updates change through shared cells, stays what a new reading of the printed text would build.", "anchors": ["src/internals/parser.rs: 45-75, 99-182, 260-298, 371-402, 421-425", "src/internals/primitives.rs: 46-422, 627-674", "src/internals/objects.rs: 29-447, 450-594", "src/internals/ast/structs.rs: 37-44, 103-116, 242-262, 617-680, 705-764"]}
{"id": "C86", "title": "What one run sets the next run gets, on every document", "statement": "Let a file hold a text of the form of TOML (C81) that is read without errors and can be printed, with any headers, also such that are stored at odd places. A run of tomlkit with --set-value that gives scalars new values of the same types succeeds for every key and writes a file. A run with --get-value of keys that were set prints, on that file, the values that were given last; and a run with any other commands, with --get-value for other scalars or names without a value, and with has-value, get-children and has-children for any keys, prints what it would have printed on the file before.", "quantifier": "all documents of that form, all lists of keys and values, all flags, all commands of the next run", "why_tests_cant": "Documents, lists of updates and queries are unbounded; the second run reads a text that the first one made from its own tree.", "anchors": ["src/bin/tomlkit.rs: 208-346, 361-648", "src/internals/parser.rs: 45-75, 99-182, 260-298, 371-402, 421-425", "src/internals/primitives.rs: 46-422", "src/internals/objects.rs: 29-447"]}
{"id": "C87", "title": "The command line of tomlkit", "statement": "Every option and command of the command line acts as the option or command of its name: a run with the options given, none of which lacks its argument, does what C51-C66 say for these options and commands. With --help, with a command line that cannot be split, without --set-value and its argument, and whenever any option or command lacks its argument, no file is changed; a file is changed only if it is the output file, or, without --output-file, an input file, and can be written. An option that lacks its argument ends the run with a message that names it before any file is read, a command that lacks it with a message that names it and the file.", "quantifier": "all command lines, all file systems, all contents of stdin and files", "why_tests_cant": "Combinations of options, missing arguments, files and failing commands are unbounded; that nothing is written in any of them is a statement about all paths through main.", "anchors": ["src/bin/tomlkit.rs: 91-130, 146-205, 208-346", "README.md: tomlkit"]}
{"id": "C88", "title": "Errors are listed in the order of their lines", "statement": "The errors that parse returns are listed in the order of their line numbers, after those that the parser had before, and each number is a line of the text, not after the line that is reported when parsing stops. Each error names a line of the header or key/value that it comes from, where the line ends between the elements of arrays and the entries of inline tables do not count (C07); blanks and comments have none, and those of text that was not read are last.", "quantifier": "all input strings, all states of the parser", "why_tests_cant": "Errors are recorded by many actions, also in alternatives that are given up later, and the line is counted elsewhere; that they stay in order is an invariant of all of them.", "anchors": ["src/internals/parser.rs: 45-75", "src/internals/primitives.rs: 286-422, 466-612, 650-674", "src/internals/objects.rs: 197-447, 450-594", "src/internals/toml.rs: 5-78", "src/internals/util.rs: 4-29"]}
{"id": "C89", "title": "No error without a cause, and no key is lost", "statement": "Every error that parse adds has its cause in an expression of the text, at a line that the error names: an invalid date-time error belongs to a date-time written there which does not exist and gives its text; a mixed array error belongs to an array written there with elements of two types; a repeated key error gives a value written there, at any depth, and its key is a key of the parser; an invalid table error belongs to a header. The key of the error ends with the key or the place in its array of this value. Errors of text that was not read come last, and there are none if all was read. No key that the parser has is lost by parsing.", "quantifier": "all input strings, all states of the parser", "why_tests_cant": "A false report needs a special state left behind by values or alternatives that were read before, such as the stacks of types and keys in nested arrays and inline tables of any depth.", "anchors": ["src/internals/parser.rs: 45-75", "src/internals/primitives.rs: 242-284, 286-422, 583-612, 638-674", "src/internals/objects.rs: 29-194, 197-447, 484-594", "src/internals/toml.rs: 5-78"]}
{"id": "C90", "title": "Each date-time that does not exist is reported exactly once", "statement": "The invalid date-time errors that parse adds are exactly one for each date-time of the text that does not exist, with its text and in the order of the text, however deep it is inside arrays and inline tables, under whatever header and beside whatever other errors; no date-time that exists is reported. Reports that the parser had stay. Only text that was not read may add others.", "quantifier": "all input strings, all states of the parser", "why_tests_cant": "Values are tried by several alternatives and loops that stop with a failing attempt, so that a date could be reported twice, or for text that was given up; this needs all nestings and all neighbours.", "anchors": ["src/internals/primitives.rs: 583-612, 638-674", "src/internals/objects.rs: 484-594", "src/internals/parser.rs: 45-75", "src/types.rs: DateTime::validate"]}
{"id": "C91", "title": "Errors of mixed arrays come before all others", "statement": "In the errors of a parser all those of mixed arrays come before those of other kinds, and none of them has a key that begins with the key of the one before it. Once the last error is of another kind, no mixed array is reported any more, neither in the rest of the text nor in texts that the parser reads later.", "quantifier": "all input strings, all parsers whose errors so far are in this order (in particular new ones)", "why_tests_cant": "It needs all combinations of errors and all keys; a single test only shows one order.", "anchors": ["src/internals/objects.rs: 484-524", "src/internals/primitives.rs: 263-284, 286-422, 583-612, 650-674", "src/internals/parser.rs: 45-75"]}
{"id": "C92", "title": "Every key/value of an accepted document is found under its name", "statement": "If a text has no arrays of tables and parse refused neither a key nor a table, then every key/value of the document that was read, in whatever table and layout, is found by get_value under the dotted names of its header and its key, with the value that was written; everything inside arrays and inline tables is found under the extended key; no two key/values have the same name. So two key/values of the same name never go without an error. Mixed arrays, date-times that do not exist and text that was not read do not change this.", "quantifier": "all input strings", "why_tests_cant": "It needs all documents, all orders of headers and all nestings; a lost or overwritten key only shows for the combination of headers that loses it.", "anchors": ["src/internals/parser.rs: 45-75, 99-112", "src/internals/primitives.rs: 263-422, 650-674", "src/internals/objects.rs: 29-194, 218-340, 484-594"]}
{"id": "C93", "title": "What get_value finds is exactly what the document writes", "statement": "If a text has no arrays of tables, is read to its end and parse refused neither a key nor a table, then get_value finds a value under a key if and only if a key/value of the document, or something inside its value, has that name and that value. So two such texts that write the same values under the same names give the same answers, whatever the order of their lines and sections, their comments and their layout; and a document writes only one value under a name.", "quantifier": "all input strings, all keys", "why_tests_cant": "That nothing else is found concerns all keys, and that order and layout do not matter concerns all pairs of texts.", "anchors": ["src/internals/parser.rs: 45-75, 99-112", "src/internals/primitives.rs: 196-422, 650-674", "src/internals/objects.rs: 29-194, 218-340, 484-594"]}
{"id": "C94", "title": "The children of a name are exactly those that the document writes", "statement": "If a text has no arrays of tables, is read to its end, parse refused neither a key nor a table, and no key/value has the name of a table of the document, then get_children answers for every key: for a key/value and everything inside it with the length of the array, the keys of the inline table in their order, or no children; for the root and every table, written or implied by a longer header, with the names of its tables and key/values, each exactly once; for every other key with nothing. If a key/value has the name of a table that an earlier header implied, this fails without an error.", "quantifier": "all input strings, all keys", "why_tests_cant": "It concerns all documents, all orders of headers and all keys; a child that is missing or listed twice only shows for the order of headers that causes it.", "anchors": ["src/internals/parser.rs: 45-75, 114-128", "src/internals/primitives.rs: 46-77, 263-422, 650-674", "src/internals/objects.rs: 78-194, 218-340, 484-594"]}
{"id": "C95", "title": "What set_value does with the name of a table", "statement": "A call of set_value with the name of a declared table (a name on which get_value panics) never changes the text that is printed, whatever it answers. With a valid scalar it answers true: the name then holds the scalar, and no other answer of get_value and no answer of get_children changes. With a scalar that is not valid it answers false. With an array of valid scalars it answers true: the name holds the array, and the entries of the table, which are still printed, are not found any more. With an inline table of valid scalars it answers true: the name holds it and its new names are added to the children of the table. In general, if the value names no key twice and the key of the first array or inline table inside it is not known without being listed, then the call answers true exactly for valid scalars and for arrays and inline tables of valid scalars, false exactly when the first scalar in it that is not valid is outside every inline table, and panics exactly otherwise; a value that was accepted is found. Whatever the value and the answer, nothing is different at a name other than the name of the table that does not begin with it.", "quantifier": "all parsers after any number of parses and updates, all names of declared tables, all values", "why_tests_cant": "That the text stays depends on the entry of the table sharing no cell with the document in any state that parses and updates can lead to.", "anchors": ["src/internals/parser.rs: set_value (130-182), same_structure (260-298), replace_values (371-402), get_all_subkeys (346-369), rebuild_vector (300-344)", "src/internals/objects.rs: std_table (312-325)", "src/internals/macros.rs: to_val (1-14)"]}
{"id": "C96", "title": "An update changes nothing at unrelated names", "statement": "Whatever value set_value is given and whether it answers true or false, get_value afterwards gives the same answer as before for every name that is unrelated to the key: it differs from the key, and neither of the two is the other one followed by a dot or an opening bracket. get_children gives the same answer for every name that is not the key and not below it. So a value stays as it is through any sequence of updates at unrelated names.", "quantifier": "all parsers after any number of parses and updates, all keys, all values, all names", "why_tests_cant": "Values share cells with the arrays and inline tables they are in; that two names whose values have a part in common always begin with one another is an invariant of every parse and update, over all documents, and a test sees only some names of some documents.", "anchors": ["src/internals/parser.rs: set_value (130-182), get_all_subkeys (346-369), rebuild_vector (300-344), replace_values (371-402)", "src/internals/primitives.rs: get_keychain_key (242-261), get_full_key (263-284), insert_keyval_into_map (286-422), keyval (650-674)", "src/internals/objects.rs: array_value (484-525), array (539-564), inline tables (566-594), std_table (218-340), array_table (343-447)"]}
{"id": "C97", "title": "An update shows above and below its key, at its place", "statement": "After set_value answered true, the value get_value gives for a name above the key (the key is that name followed by a dot or an opening bracket) is either the value from before or that value with the part that the key names replaced by the value now at the key, all other parts the same in number, order and names. A value found below the key is the part of the value at the key that its name tells, or was found at that name before. In an accepted document without arrays of tables, a value and its parts agree at all times: after any updates, none of them above the part, the value found at the part's name is the part that the value holds there, and an accepted update of the part always shows in the value.", "quantifier": "all parsers after any number of parses and updates, all keys, all values, all names above or below the key", "why_tests_cant": "The values above a key share cells with it to any depth; that a shared cell sits where the names say is an invariant of every parse and update over all documents.", "anchors": ["src/internals/parser.rs: set_value (130-182), get_all_subkeys (346-369), rebuild_vector (300-344), replace_values (371-402)", "src/internals/primitives.rs: insert_keyval_into_map (286-422), get_keychain_key (242-261)", "src/internals/objects.rs: array_value (484-525), array (539-564), inline tables (566-594)"]}
