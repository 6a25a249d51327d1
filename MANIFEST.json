{
 "claims": [
  {
   "property": "C01",
   "status": "proved",
   "theorems": [
    "C01_lossless"
   ],
   "note": ""
  },
  {
   "property": "C02",
   "status": "proved",
   "theorems": [
    "C02_prefix"
   ],
   "note": ""
  },
  {
   "property": "C03",
   "status": "partial",
   "theorems": [
    "C03_leftover_refuted",
    "C03_leftover_partial"
   ],
   "note": "False as stated: a fresh parser always reports an empty leftover. Proved: the leftover reported is always the one stored by the parse before, while the true remainder is stored in the parser."
  },
  {
   "property": "C04",
   "status": "proved",
   "theorems": [
    "C04_terminates"
   ],
   "note": ""
  },
  {
   "property": "C05",
   "status": "partial",
   "theorems": [
    "C05_show_refuted",
    "C05_show_partial"
   ],
   "note": "False as stated (`a = {}` panics on print). Proved: after any parse the print completes exactly when the document holds no empty inline table."
  },
  {
   "property": "C06",
   "status": "partial",
   "theorems": [
    "C06_no_panic_partial",
    "C06_one_name_partial",
    "C06_apart_partial",
    "C06_no_panic_refuted"
   ],
   "note": "False as stated: witnesses with and without overflow checks. Proved for every input whose array-of-tables headers have one name (with overflow checks not the name of a key) and whose dotted table headers do not go through a name that is an array or array of tables anywhere in the input; this includes every input whose headers have one name. Proved too for inputs with dotted array-of-tables headers when no header continues the text of such a header, the names before the last of a header are not keys of arrays, those of an array-of-tables header not keys at all, and with overflow checks its last name is not a key either."
  },
  {
   "property": "C07",
   "status": "partial",
   "theorems": [
    "C07_line_refuted",
    "C07_later_refuted",
    "C07_line_partial",
    "C07_bounds_partial"
   ],
   "note": "False as stated: line ends inside arrays are not counted, and line ends of multi-line strings in an array that is then not read are counted. For every input, the reported line plus the line ends between elements is not before the line where parsing stopped and not after the last line; it is exactly that line unless the unparsed rest starts with a key and an array or inline table and has three quotes in a row."
  },
  {
   "property": "C08",
   "status": "proved",
   "theorems": [
    "C08_dates_valid",
    "C08_invalid_reported"
   ],
   "note": ""
  },
  {
   "property": "C09",
   "status": "proved",
   "theorems": [
    "C09_uniform_arrays"
   ],
   "note": ""
  },
  {
   "property": "C10",
   "status": "partial",
   "theorems": [
    "C10_mixed_reported_refuted",
    "C10_prefix_refuted",
    "C10_mixed_partial",
    "C10_key_partial"
   ],
   "note": "False as stated: after an error of another kind mixed arrays are not reported (C10_mixed_reported_refuted), nor when the name of the array reported before is a prefix of the name (C10_prefix_refuted); C91 says for every input that this is always so. Proved: a document with a mixed array always reports an error, a MixedArray error unless errors of another kind are reported (C10_mixed_partial); in documents of key/value lines and table headers without other errors and without such prefixes the errors are exactly the mixed arrays with their full names and lines (C10_key_partial)."
  },
  {
   "property": "C11",
   "status": "proved",
   "theorems": [
    "C11_errors_reported",
    "C11_errors_kept"
   ],
   "note": ""
  },
  {
   "property": "C12",
   "status": "proved",
   "theorems": [
    "C12_flat_lookup"
   ],
   "note": ""
  },
  {
   "property": "C13",
   "status": "proved",
   "theorems": [
    "C13_duplicates"
   ],
   "note": ""
  },
  {
   "property": "C14",
   "status": "proved",
   "theorems": [
    "C14_root_children",
    "C14_first_keys"
   ],
   "note": ""
  },
  {
   "property": "C15",
   "status": "proved",
   "theorems": [
    "C15_array_index"
   ],
   "note": "For every line of every document of lines and sections (any spacing), for elements of any one type, not only scalars. C94 lifts it to all inputs without arrays of tables."
  },
  {
   "property": "C16",
   "status": "proved",
   "theorems": [
    "C16_sections"
   ],
   "note": "Values may also be nested; blank lines, comments and root keys allowed; also the order of the top-level names."
  },
  {
   "property": "C17",
   "status": "partial",
   "theorems": [
    "C17_prefix_refuted",
    "C17_siblings_partial",
    "C17_any_order_partial"
   ],
   "note": "False as stated: [[foobar]] directly after [[foo]] is stored as foo[0].foobar (C17_prefix_refuted). Proved for any number of arrays whose headers come in any order, with tables in their elements, when no name continues that of the header before (C17_any_order_partial); missing besides these: tables at the top between headers of one array, where elements are lost (C60_lost_refuted)."
  },
  {
   "property": "C18",
   "status": "proved",
   "theorems": [
    "C18_unknown_refused"
   ],
   "note": ""
  },
  {
   "property": "C19",
   "status": "proved",
   "theorems": [
    "C19_scalar_set"
   ],
   "note": ""
  },
  {
   "property": "C20",
   "status": "proved",
   "theorems": [
    "C20_scalar_text",
    "C20_places",
    "C79_change_partial"
   ],
   "note": "C79_change_partial gives the place for every key that is found."
  },
  {
   "property": "C21",
   "status": "proved",
   "theorems": [
    "C21_same_structure"
   ],
   "note": ""
  },
  {
   "property": "C22",
   "status": "partial",
   "theorems": [
    "C22_refused_refuted",
    "C22_refused_partial"
   ],
   "note": "False as stated: refusing an invalid value on an array drops its elements from the lookup. Proved: the text never changes, lookups change at most below the key, and not at all if the key has no children."
  },
  {
   "property": "C23",
   "status": "partial",
   "theorems": [
    "C23_any_value_refuted",
    "C23_any_value_partial",
    "C23_terminates",
    "C80_outcome"
   ],
   "note": "False as stated: setting an array or inline table to a scalar panics. Proved: for values of the same structure and for all flat arrays and flat inline tables of valid scalars, over any old value; C80_outcome says exactly when it panics."
  },
  {
   "property": "C24",
   "status": "partial",
   "theorems": [
    "C24_resize_refuted",
    "C24_resize_partial",
    "C24_documents_partial",
    "C24_accepted_partial"
   ],
   "note": "False as stated in a corner case (a key that was a table before). Proved in full when the children recorded for the key are Count(n) and no element from n on is known; C24_documents_partial shows that this is so for every array line of every DocSpec document, and that get_children and lookups give the new elements there. C24_accepted_partial shows it for every array, at any depth, of every accepted text without arrays of tables in which no key/value has the name of a table (that is the corner case). See also C96/C97 for the names around the key."
  },
  {
   "property": "C25",
   "status": "partial",
   "theorems": [
    "C25_table_children_refuted",
    "C25_table_children_partial",
    "C25_documents_partial",
    "C25_accepted_partial"
   ],
   "note": "False as stated: old keys stay listed. Proved: the list is the old one followed by the new keys, hence exact when no old key disappears and the order is kept; C25_documents_partial says the same for every inline-table line of every DocSpec document, and C25_accepted_partial for every inline table, at any depth, of every accepted text without arrays of tables in which no key/value has the name of a table."
  },
  {
   "property": "C26",
   "status": "partial",
   "theorems": [
    "C26_format_refuted",
    "C26_format_partial"
   ],
   "note": "False as stated for inline tables (a space inside the braces). Proved: the exact format of restructured flat arrays (as documented) and of flat inline tables."
  },
  {
   "property": "C27",
   "status": "proved",
   "theorems": [
    "C27_commute",
    "C27_last_wins"
   ],
   "note": ""
  },
  {
   "property": "C28",
   "status": "partial",
   "theorems": [
    "C28_total_refuted",
    "C28_panics_partial",
    "C28_documents_partial",
    "C28_accepted_partial"
   ],
   "note": "False as stated: get_value of a declared table panics. The partial theorems show these are the only keys on which it panics after a parse, and exactly which keys they are for DocSpec documents. C28_accepted_partial: in every accepted text without arrays of tables (and without a key/value that has the name of a table) it answers for every key that is not the name of a table or of the root."
  },
  {
   "property": "C29",
   "status": "partial",
   "theorems": [
    "C29_visible_refuted",
    "C29_visible_partial",
    "C79_change_partial"
   ],
   "note": "False as stated: a declared table accepts a scalar that is not printed. Proved for keys that hold a scalar of the document; by C79_change_partial those are all keys with a scalar after a parse whose unread rest does not start with a key and a nested value. C95 says what happens to a declared table."
  },
  {
   "property": "C30",
   "status": "proved",
   "theorems": [
    "C30_date_gregorian"
   ],
   "note": ""
  },
  {
   "property": "C31",
   "status": "partial",
   "theorems": [
    "C31_only_digits_refuted",
    "C31_date_fields_partial",
    "C31_offset_fields_partial",
    "C31_time_fields_partial"
   ],
   "note": "False as stated: a leading plus sign is accepted. Refuted by witness; exact characterisation proved for all strings."
  },
  {
   "property": "C32",
   "status": "partial",
   "theorems": [
    "C32_time_validate_refuted",
    "C32_time_validate_partial"
   ],
   "note": "False as stated: a fraction above 2^64-1 is rejected. Exact characterisation with that bound proved."
  },
  {
   "property": "C33",
   "status": "proved",
   "theorems": [
    "C33_date_from_int",
    "C33_datetime_from_int",
    "C33_datetime_frac_from_int",
    "C33_datetime_zulu_from_int",
    "C33_datetime_full_zulu_from_int",
    "C33_datetime_offset_from_int",
    "C33_datetime_full_from_int"
   ],
   "note": "Fractions range over u64, the type of the argument."
  },
  {
   "property": "C34",
   "status": "proved",
   "theorems": [
    "C34_datetime_parse_sound",
    "C34_datetime_parse_complete",
    "C34_datetime_valid"
   ],
   "note": ""
  },
  {
   "property": "C35",
   "status": "proved",
   "theorems": [
    "C35_value_int"
   ],
   "note": ""
  },
  {
   "property": "C36",
   "status": "partial",
   "theorems": [
    "C36_numbers_whole_refuted",
    "C36_integer_partial",
    "C36_float_partial",
    "C36_integer_any_partial",
    "C36_float_any_partial"
   ],
   "note": "False as stated: only a prefix is checked, and decimal digits of other scripts pass. Exact characterisation proved for ASCII strings, and for all strings with digits of any script."
  },
  {
   "property": "C37",
   "status": "proved",
   "theorems": [
    "C37_basic_string_ok",
    "C37_basic_string_reads"
   ],
   "note": ""
  },
  {
   "property": "C38",
   "status": "proved",
   "theorems": [
    "C38_literal_string_ok",
    "C38_literal_string_reads"
   ],
   "note": ""
  },
  {
   "property": "C39",
   "status": "partial",
   "theorems": [
    "C39_ml_string_refuted",
    "C39_ml_string_ok",
    "C39_ml_string_partial"
   ],
   "note": "False as stated: a body ending in or containing the closing quotes is accepted by the constructor. Proved: exactly which bodies are accepted, and reading back for every accepted body in which the closing delimiter does not occur before the end."
  },
  {
   "property": "C40",
   "status": "proved",
   "theorems": [
    "C40_bool_from_str",
    "C40_bool_show"
   ],
   "note": ""
  },
  {
   "property": "C41",
   "status": "proved",
   "theorems": [
    "C41_child_keys",
    "C41_child_count",
    "C41_helpers",
    "C41_injective"
   ],
   "note": ""
  },
  {
   "property": "C42",
   "status": "partial",
   "theorems": [
    "C42_show_value_refuted",
    "C42_show_value_partial"
   ],
   "note": "False as stated: an empty array or inline table panics. Proved: printing completes exactly when there is none inside."
  },
  {
   "property": "C43",
   "status": "partial",
   "theorems": [
    "C43_sign_refuted",
    "C43_update_partial"
   ],
   "note": "False as stated for date-times built by the from_str constructors with a sign in a field (C43_sign_refuted). C43_update_partial: proved for everything else in the claim, and also for digit date-times, integers, floats and multi-line strings that are spelled correctly, on documents with sections and nested values."
  },
  {
   "property": "C44",
   "status": "partial",
   "theorems": [
    "C44_comment_refuted",
    "C44_comment_partial"
   ],
   "note": "False as stated above U+10FFF. Proved: for every comment without control characters the document is parsed Full exactly when no character is above U+10FFF."
  },
  {
   "property": "C45",
   "status": "partial",
   "theorems": [
    "C45_show_refuted",
    "C45_show_partial"
   ],
   "note": "False as stated: a parser that has parsed nothing panics. Proved for every reachable parser: printing completes exactly when something was parsed and no inline table of the document is empty."
  },
  {
   "property": "C46",
   "status": "proved",
   "theorems": [
    "C46_paths",
    "C46_index_text"
   ],
   "note": "Documents as in C47; distinct and plain_headers are the only restrictions."
  },
  {
   "property": "C47",
   "status": "proved",
   "theorems": [
    "C47_tables"
   ],
   "note": "The two restrictions on [[headers]] (plain_headers) are part of the statement; without them the code is wrong, see C17 and DESIGN.md. C94 lifts it to all inputs without arrays of tables."
  },
  {
   "property": "C48",
   "status": "proved",
   "theorems": [
    "C48_array_update",
    "C48_inline_update"
   ],
   "note": "Documents without empty inline tables (those cannot be printed, C05)."
  },
  {
   "property": "C49",
   "status": "partial",
   "theorems": [
    "C49_dotted_refuted",
    "C49_dotted_partial"
   ],
   "note": "False as stated: a header inside a table that already has key/value lines is reported as InvalidTable (C49_dotted_refuted). Proved when every header comes before the key/value lines of the table that directly contains it (parents_empty); other ancestors are free."
  },
  {
   "property": "C50",
   "status": "partial",
   "theorems": [
    "C50_faults_refuted",
    "C50_faults_partial"
   ],
   "note": "False as stated when the value below a wrong header or of a repeated key is an array: its elements can be looked up (C50_faults_refuted). Proved for scalar values there and any values elsewhere (arrays on one line, because line ends inside arrays are not counted, C07); these other values may have mixed arrays and invalid date-times, whose errors are described as well."
  },
  {
   "property": "C51",
   "status": "proved",
   "theorems": [
    "C51_get_value",
    "C51_missing",
    "C51_documents"
   ],
   "note": "For keys that have a printable value or none; get_value itself panics on keys of declared tables (C28), and values with empty arrays or inline tables cannot be printed (C42). C51_documents: for DocSpec documents the values are the ones written in the text."
  },
  {
   "property": "C52",
   "status": "proved",
   "theorems": [
    "C52_answers"
   ],
   "note": "For keys on which get_value does not panic (C28)."
  },
  {
   "property": "C53",
   "status": "proved",
   "theorems": [
    "C53_children",
    "C53_missing"
   ],
   "note": ""
  },
  {
   "property": "C54",
   "status": "partial",
   "theorems": [
    "C54_kept_refuted",
    "C54_writes",
    "C54_refused",
    "C54_success",
    "C54_rejected",
    "C54_count",
    "C51_missing"
   ],
   "note": "Everything but the last sentence is proved. That one is false: set-value on a document with an empty inline table empties the file and then panics (C54_kept_refuted); C54_writes shows that this is the only way a file gets other contents than the updated document, and C54_success that it does not happen for documents that can be printed."
  },
  {
   "property": "C55",
   "status": "partial",
   "theorems": [
    "C55_set_get_refuted",
    "C55_set_get_partial",
    "C55_readable_partial"
   ],
   "note": "False as stated: 1x is accepted as an integer and the file can no longer be read (C55_set_get_refuted). Proved for values that are spelled correctly (all basic and literal strings, booleans and date-times; integers, floats and multi-line strings in TOML syntax) on DocSpec documents. C86 says it for every text of the form of C81 that is read without errors, for scalars that keep their types."
  },
  {
   "property": "C56",
   "status": "partial",
   "theorems": [
    "C56_types_refuted",
    "C56_types_partial",
    "C56_accepted"
   ],
   "note": "False as stated for date-times with offset Z, which is dropped (C56_types_refuted). C56_types_partial says for every run that writes a file which values were stored: those of the type named that have the text given, except for that Z. C56_accepted: every type is known under both names and a valid text is stored."
  },
  {
   "property": "C57",
   "status": "partial",
   "theorems": [
    "C57_failed_refuted",
    "C57_print_doc"
   ],
   "note": "The last part is false: after a failed set-value the updates before the failing one are printed (C57_failed_refuted). The rest is proved for documents that can be printed (C05)."
  },
  {
   "property": "C58",
   "status": "partial",
   "theorems": [
    "C58_strip_refuted",
    "C58_strip_partial"
   ],
   "note": "False as stated: quotes at the ends of the contents are stripped too (C58_strip_refuted). Proved for contents that do not begin or end with a quote."
  },
  {
   "property": "C59",
   "status": "partial",
   "theorems": [
    "C59_quiet_refuted"
   ],
   "note": "False: the option is never looked at, so Success is always printed."
  },
  {
   "property": "C60",
   "status": "partial",
   "theorems": [
    "C60_siblings_refuted",
    "C60_reopened_refuted",
    "C60_returned_refuted",
    "C60_lost_refuted",
    "C60_prefix_refuted",
    "C60_top_refuted",
    "C60_nested_partial"
   ],
   "note": "False as stated: a second array inside the same element panics (C60_siblings_refuted); returning to an array after a table overwrites its first element (C60_reopened_refuted, C60_lost_refuted); after returning to an array with two elements from another array, arrays in its elements lose theirs (C60_returned_refuted); a table whose name starts with that of an open array goes into its element (C60_prefix_refuted); tables inside elements are also listed at the top (C60_top_refuted). Proved for documents that open arrays along the open ones or go back to one at the top from another (along_edge) and declare every table named by a header before it; the list at the top is given exactly, and is the right one when table headers have one name."
  },
  {
   "property": "C61",
   "status": "proved",
   "theorems": [
    "C61_values",
    "C61_datetimes"
   ],
   "note": ""
  },
  {
   "property": "C62",
   "status": "proved",
   "theorems": [
    "C62_equivalence"
   ],
   "note": ""
  },
  {
   "property": "C63",
   "status": "partial",
   "theorems": [
    "C63_text_refuted",
    "C63_exact_partial",
    "C63_text_partial",
    "C63_documents_partial"
   ],
   "note": "False as stated: the kind of a string and comments and line ends in inline tables are not compared (C63_text_refuted). C63_exact_partial says exactly what is compared; the claim is proved for documents without strings and without comments and line ends in inline tables."
  },
  {
   "property": "C64",
   "status": "proved",
   "theorems": [
    "C64_several",
    "C64_in_place",
    "C64_output_last"
   ],
   "note": "For files that are all processed to the end; no file is named twice and the output file is not among them, or nothing is set. Two different paths are taken to be two files."
  },
  {
   "property": "C65",
   "status": "proved",
   "theorems": [
    "C65_stops",
    "C65_alone"
   ],
   "note": "For files that stop with a message; for those that panic see C54."
  },
  {
   "property": "C66",
   "status": "proved",
   "theorems": [
    "C66_changes",
    "C66_names"
   ],
   "note": ""
  },
  {
   "property": "C67",
   "status": "partial",
   "theorems": [
    "C67_only_toml_refuted",
    "C67_comment_refuted",
    "C67_only_toml_partial"
   ],
   "note": "False as stated: commas may be missing and decimal digits of other scripts are accepted (C67_only_toml_refuted), and such a digit can end a comment inside an array (C67_comment_refuted). Proved for inputs without digits of other scripts, for the grammar of GramSpec.v, which differs from TOML in optional commas, in line ends and comments inside inline tables and in the hexadecimal digits of escapes."
  },
  {
   "property": "C68",
   "status": "proved",
   "theorems": [
    "C68_dates_named"
   ],
   "note": ""
  },
  {
   "property": "C69",
   "status": "proved",
   "theorems": [
    "C69_quoted_apart"
   ],
   "note": ""
  },
  {
   "property": "C70",
   "status": "partial",
   "theorems": [
    "C70_session_refuted",
    "C70_sections_partial",
    "C70_dotted_partial",
    "C70_nested_partial"
   ],
   "note": "False as stated: after a value has got another shape the children of the old one are still listed in memory (C70_session_refuted). Proved for the documents of C15, C49 and C60 without empty inline tables: updates at any path that keep the shape of the value, and updates of whole values of lines to arrays and inline tables of scalars of another shape; in memory the places inside a value are covered as long as its shape was kept, after reading again always. C85 lifts the updates that keep structure and types to every text of the form of C81."
  },
  {
   "property": "C71",
   "status": "partial",
   "theorems": [
    "C55_set_get_refuted",
    "C71_sections_partial",
    "C71_dotted_partial",
    "C71_nested_partial"
   ],
   "note": "False as stated: a text that only begins with an integer is accepted and the file cannot be read again (C55_set_get_refuted). Proved for the documents of C15, C49 and C60 without empty inline tables and for values that are spelled correctly, at any path inside the values. C86 says it for every text of the form of C81 that is read without errors, for scalars that keep their types."
  },
  {
   "property": "C72",
   "status": "proved",
   "theorems": [
    "C72_date",
    "C72_datetime",
    "C72_datetime_frac",
    "C72_datetime_zulu",
    "C72_datetime_full_zulu",
    "C72_datetime_offset",
    "C72_datetime_full"
   ],
   "note": "One theorem for each constructor; the case of parts with a plus sign, accepted by the code, is in the example and in C31."
  },
  {
   "property": "C73",
   "status": "proved",
   "theorems": [
    "C73_text",
    "C73_print_read",
    "C73_reprint"
   ],
   "note": "Printing a value with an empty array or inline table inside panics, see C42."
  },
  {
   "property": "C74",
   "status": "partial",
   "theorems": [
    "C74_unreachable_refuted",
    "C74_dangling_refuted",
    "C74_sections_partial",
    "C74_dotted_partial",
    "C74_nested_partial"
   ],
   "note": "False as stated: some documents have values that are in no list of children (C74_unreachable_refuted), and the root may list a name that is no key (C74_dangling_refuted). Proved for the documents of C15, C49 and C60; for those of C60 with a table header of more than one name, that every key is found."
  },
  {
   "property": "C75",
   "status": "partial",
   "theorems": [
    "C75_array_after_partial",
    "C75_array_first_refuted",
    "C75_key_refuted"
   ],
   "note": "Proved for an array of tables after a table or a key of that name, in documents with other faults and with any text following. False as stated in the other order: the table is accepted; the keys below the wrong header of an array of tables are stored (C75_array_first_refuted); with overflow checks the header panics if the key has a value without children (C75_key_refuted)."
  },
  {
   "property": "C76",
   "status": "partial",
   "theorems": [
    "C76_later_text_partial",
    "C76_element_refuted"
   ],
   "note": "Proved for documents of key/value lines and dotted table headers, with faults, followed by any text. False as stated for elements of arrays of tables, whose keys a later header removes without a report, and for the number of children of an array (C76_element_refuted); an error of a wrong table may get more keys."
  },
  {
   "property": "C77",
   "status": "proved",
   "theorems": [
    "C77_same_parse",
    "C77_same_document",
    "C77_same_run"
   ],
   "note": "The converse does not hold: a build with overflow checks panics where one without goes on (C77_panic_refuted, see also C06)."
  },
  {
   "property": "C78",
   "status": "partial",
   "theorems": [
    "C78_same_tree_partial",
    "C78_values_refuted"
   ],
   "note": "False as stated: a parser that is used again stores keys below the last header of the earlier text, keeps its keys and errors and goes on counting its lines (C78_values_refuted). Proved for the document read, its printed text, the text left over and the number of lines, from any two states."
  },
  {
   "property": "C79",
   "status": "partial",
   "theorems": [
    "C79_written_partial",
    "C79_change_partial",
    "C79_unread_refuted"
   ],
   "note": "False as stated: the elements of an array or inline table that is then not read are found and can be set, but are not printed. Proved for all texts whose unread rest does not start with a key and an array or inline table, in particular all that are read in full, and all sequences of updates that keep the structure or are refused. Updates that change the structure are not covered."
  },
  {
   "property": "C80",
   "status": "proved",
   "theorems": [
    "C80_outcome",
    "C80_accepted",
    "C80_cases"
   ],
   "note": "With the two exceptions named in the claim, as hypothesis new_names."
  },
  {
   "property": "C81",
   "status": "partial",
   "theorems": [
    "C81_whole_partial",
    "C81_comma_refuted",
    "C81_tab_refuted",
    "C81_hex_refuted",
    "C81_plane_refuted"
   ],
   "note": "Proved for all parser states and all lines. False for some texts that the specification of TOML also allows: a comma on the line after its element, the escape t in multi-line strings, hexadecimal digits in lower case, characters above U+FFFF in strings (the refuted theorems)."
  },
  {
   "property": "C82",
   "status": "proved",
   "theorems": [
    "C82_stay"
   ],
   "note": "Values are required to have the form of TOML values, which validate does not ensure (C36, C39)."
  },
  {
   "property": "C83",
   "status": "proved",
   "theorems": [
    "C83_layout"
   ],
   "note": "For the documents of C81; the errors are equal except for their line numbers."
  },
  {
   "property": "C84",
   "status": "proved",
   "theorems": [
    "C84_values"
   ],
   "note": "For the documents of C81. Errors are compared by what they are, their key, and the names below a wrong header; their line numbers and the values they name may differ."
  },
  {
   "property": "C85",
   "status": "proved",
   "theorems": [
    "C85_again",
    "C85_kindred"
   ],
   "note": "For the documents of C81 and a new parser. Documents with an empty inline table panic when printed (C42), hence the hypothesis on show_parser. Refused updates that change the structure are excluded: they remove keys (C22)."
  },
  {
   "property": "C86",
   "status": "proved",
   "theorems": [
    "C86_next_run"
   ],
   "note": "For values that are spelled correctly, which the tool does not ensure (C55). The other text of the file stays as it is by C82."
  },
  {
   "property": "C87",
   "status": "partial",
   "theorems": [
    "C87_options",
    "C87_no_change",
    "C87_changes",
    "C87_message_partial",
    "C87_message_refuted",
    "C87_command"
   ],
   "note": "Everything is proved but for the name in the message: --array-end and --array-separator without argument are reported as separator (C87_message_refuted). The splitting of the command line by the crate pirate is not modelled; all theorems hold for whatever it answers."
  },
  {
   "property": "C88",
   "status": "proved",
   "theorems": [
    "C88_order",
    "C88_within",
    "C88_plain_refuted"
   ],
   "note": "For every input and parser. Counted with the line ends inside arrays it is false (C88_plain_refuted), as C07."
  },
  {
   "property": "C89",
   "status": "proved",
   "theorems": [
    "C89_causes",
    "C89_full",
    "C89_repeated",
    "C89_keys_stay"
   ],
   "note": "For every input and parser; the converse, that every fault is reported, is C08 and C09, and for a class of documents the exact list of errors is C50."
  },
  {
   "property": "C90",
   "status": "proved",
   "theorems": [
    "C90_once",
    "C90_full"
   ],
   "note": "For every input and parser; the full keys of the errors are C68 for a class of documents, and for every input the key ends as C89 says."
  },
  {
   "property": "C91",
   "status": "proved",
   "theorems": [
    "C91_first",
    "C91_new",
    "C91_silent"
   ],
   "note": "For every input; it shows how far the loss of reports of C10 goes."
  },
  {
   "property": "C92",
   "status": "proved",
   "theorems": [
    "C92_found",
    "C92_distinct",
    "C92_clash"
   ],
   "note": "For every input without arrays of tables; it lifts C12 and C13 from classes of documents to all of them. Arrays of tables are C17 and C60 for a class of documents. For them the claim is false in general (C60)."
  },
  {
   "property": "C93",
   "status": "proved",
   "theorems": [
    "C93_exact",
    "C93_same",
    "C93_one"
   ],
   "note": "For every input without arrays of tables. Children are C94."
  },
  {
   "property": "C94",
   "status": "proved",
   "theorems": [
    "C94_values",
    "C94_tables",
    "C94_only",
    "C94_apart_refuted"
   ],
   "note": "For every input without arrays of tables; C94_apart_refuted shows that the condition on names is needed. It lifts C15 and C47 from classes of documents to all of them, and says that nothing else has children."
  },
  {
   "property": "C95",
   "status": "proved",
   "theorems": [
    "C95_text",
    "C95_scalar",
    "C95_invalid",
    "C95_array",
    "C95_inline",
    "C95_outcome",
    "C95_elsewhere"
   ],
   "note": "The universal form of the exception to C29."
  },
  {
   "property": "C96",
   "status": "proved",
   "theorems": [
    "C96_values",
    "C96_children",
    "C96_sequence"
   ],
   "note": "Extends C19, C24 and C95 (other names) from scalars and tables to all values and all states. The name of the root, $Root$, is left out as a key in C96_children; no document can write it."
  },
  {
   "property": "C97",
   "status": "proved",
   "theorems": [
    "C97_above",
    "C97_below",
    "C97_agree",
    "C97_shows"
   ],
   "note": "With C96 this covers all names for an accepted update. The first case of each (the value from before) is needed: after a name given twice, a[1] need not be in a (C97_twice_ex)."
  }
 ]
}
