(** Validation of the model against the repository's own tests.  These are
    tests (each one computes the model on one input), not proofs of the
    properties.  Sources: /repo/tests/assets.rs with /repo/assets,
    /repo/tests/get_set.rs and the test modules of
    /repo/src/internals/parser.rs. *)
From Verif Require Import Str Regex Types Ast State Nom Keys Grammar Api.

(** parse in a fresh parser (as every test of the repository does, e.g.
    /repo/tests/assets.rs:11-12) *)
Definition run (i : str) : res (pst * parse_result) := parse (new_parser true) i.

(** /repo/tests/assets.rs:9-19 *)
Definition verify_valid (i : str) : bool :=
  match (let? (s, _) := run i in show_parser s) with
  | Ok o => str_eqb o i
  | _ => false
  end.

(** /repo/tests/assets.rs:21-29 *)
Definition verify_invalid (i : str) : bool :=
  match run i with
  | Ok (_, Full) => false
  | Ok _ => true
  | _ => false
  end.

(** value of a key after parsing, /repo/tests/get_set.rs:226-254 *)
Definition get_after (i k : str) : res (option value) :=
  let? (s, _) := run i in get_value s k.

(** children of a key after parsing, /repo/tests/get_set.rs:261-286 *)
Definition children_after (i k : str) : res (option children) :=
  let? (s, _) := run i in Ok (get_children s k).

(** a sequence of updates, /repo/tests/get_set.rs:36-63 *)
Fixpoint sets (l : list (str * option value)) (s : pst) : res (pst * list bool) :=
  match l with
  | [] => Ok (s, [])
  | (k, None) :: _ => Panic
  | (k, Some v) :: l' =>
      let? (s, b) := set_value s k v in
      let? (s, bs) := sets l' s in Ok (s, b :: bs)
  end.

(** /repo/assets/valid/array-empty.toml *)
Example valid_array_empty_toml : verify_valid (
ulit "thevoid = [[[[[]]]]]
") = true.
Proof. vm_compute. reflexivity. Qed.

(** /repo/assets/valid/array-nospaces.toml *)
Example valid_array_nospaces_toml : verify_valid (
ulit "ints = [1,2,3]
") = true.
Proof. vm_compute. reflexivity. Qed.

(** /repo/assets/valid/arrays-hetergeneous.toml *)
Example valid_arrays_hetergeneous_toml : verify_valid (
ulit "mixed = [[1, 2], [""a"", ""b""], [1.1, 2.1]]
") = true.
Proof. vm_compute. reflexivity. Qed.

(** /repo/assets/valid/arrays-nested.toml *)
Example valid_arrays_nested_toml : verify_valid (
ulit "nest = [[""a""], [""b""]]
") = true.
Proof. vm_compute. reflexivity. Qed.

(** /repo/assets/valid/arrays.toml *)
Example valid_arrays_toml : verify_valid (
ulit "ints = [1, 2, 3]
floats = [1.1, 2.1, 3.1]
strings = [""a"", ""b"", ""c""]
dates = [
  1987-07-05T17:45:00Z,
  1979-05-27T07:32:00Z,
  2006-06-01T11:00:00Z,
]
") = true.
Proof. vm_compute. reflexivity. Qed.

(** /repo/assets/valid/bool.toml *)
Example valid_bool_toml : verify_valid (
ulit "t = true
f = false
") = true.
Proof. vm_compute. reflexivity. Qed.

(** /repo/assets/valid/comments-everywhere.toml *)
Example valid_comments_everywhere_toml : verify_valid (
ulit "# Top comment.
  # Top comment.
# Top comment.

# [no-extraneous-groups-please]

[group] # Comment
answer = 42 # Comment
# no-extraneous-keys-please = 999
# Inbetween comment.
more = [ # Comment
  # What about multiple # comments?
  # Can you handle it?
  #
          # Evil.
# Evil.
  42, 42, # Comments within arrays are fun.
  # What about multiple # comments?
  # Can you handle it?
  #
          # Evil.
# Evil.
# ] Did I fool you?
] # Hopefully not.
") = true.
Proof. vm_compute. reflexivity. Qed.

(** /repo/assets/valid/datetime-malformed-no-z.toml *)
Example valid_datetime_malformed_no_z_toml : verify_valid (
ulit "no-z = 1987-07-05T17:45:00
") = true.
Proof. vm_compute. reflexivity. Qed.

(** /repo/assets/valid/datetime.toml *)
Example valid_datetime_toml : verify_valid (
ulit "bestdayever = 1987-07-05T17:45:00Z
") = true.
Proof. vm_compute. reflexivity. Qed.

(** /repo/assets/valid/empty.toml *)
Example valid_empty_toml : verify_valid (
ulit "") = true.
Proof. vm_compute. reflexivity. Qed.

(** /repo/assets/valid/example-v0.4.0.toml.txt *)
Example valid_example_v0_4_0_toml_txt : verify_valid (
ulit "################################################################################
## Comment

# Speak your mind with the hash symbol. They go from the symbol to the end of
# the line.


################################################################################
## Table

# Tables (also known as hash tables or dictionaries) are collections of
# key/value pairs. They appear in square brackets on a line by themselves.

[table]

key = ""value"" # Yeah, you can do this.

# Nested tables are denoted by table names with dots in them. Name your tables
# whatever crap you please, just don't use #, ., [ or ].

[table.subtable]

key = ""another value""

# You don't need to specify all the super-tables if you don't want to. TOML
# knows how to do it for you.

# [x] you
# [x.y] don't
# [x.y.z] need these
[x.y.z.w] # for this to work


################################################################################
## Inline Table

# Inline tables provide a more compact syntax for expressing tables. They are
# especially useful for grouped data that can otherwise quickly become verbose.
# Inline tables are enclosed in curly braces `{` and `}`. No newlines are
# allowed between the curly braces unless they are valid within a value.

[table.inline]

name = { first = ""Tom"", last = ""Preston-Werner"" }
point = { x = 1, y = 2 }


################################################################################
## String

# There are four ways to express strings: basic, multi-line basic, literal, and
# multi-line literal. All strings must contain only valid UTF-8 characters.

[string.basic]

basic = ""I'm a string. \""You can quote me\"". Name\tJos\u00E9\nLocation\tSF.""

[string.multiline]

# The following strings are byte-for-byte equivalent:
key1 = ""One\nTwo""
key2 = """"""One\nTwo""""""
key3 = """"""
One
Two""""""

[string.multiline.continued]

# The following strings are byte-for-byte equivalent:
key1 = ""The quick brown fox jumps over the lazy dog.""

key2 = """"""
The quick brown \


  fox jumps over \
    the lazy dog.""""""

key3 = """"""\
       The quick brown \
       fox jumps over \
       the lazy dog.\
       """"""

[string.literal]

# What you see is what you get.
winpath  = 'C:\Users\nodejs\templates'
winpath2 = '\\ServerX\admin$\system32\'
quoted   = 'Tom ""Dubs"" Preston-Werner'
regex    = '<\i\c*\s*>'


[string.literal.multiline]

regex2 = '''I [dw]on't need \d{2} apples'''
lines  = '''
The first newline is
trimmed in raw strings.
   All other whitespace
   is preserved.
'''


################################################################################
## Integer

# Integers are whole numbers. Positive numbers may be prefixed with a plus sign.
# Negative numbers are prefixed with a minus sign.

[integer]

key1 = +99
key2 = 42
key3 = 0
key4 = -17

[integer.underscores]

# For large numbers, you may use underscores to enhance readability. Each
# underscore must be surrounded by at least one digit.
key1 = 1_000
key2 = 5_349_221
key3 = 1_2_3_4_5     # valid but inadvisable


################################################################################
## Float

# A float consists of an integer part (which may be prefixed with a plus or
# minus sign) followed by a fractional part and/or an exponent part.

[float.fractional]

key1 = +1.0
key2 = 3.1415
key3 = -0.01

[float.exponent]

key1 = 5e+22
key2 = 1e6
key3 = -2E-2

[float.both]

key = 6.626e-34

[float.underscores]

key1 = 9_224_617.445_991_228_313
key2 = 1e1_000


################################################################################
## Boolean

# Booleans are just the tokens you're used to. Always lowercase.

[boolean]

True = true
False = false


################################################################################
## Datetime

# Datetimes are RFC 3339 dates.

[datetime]

key1 = 1979-05-27T07:32:00Z
key2 = 1979-05-27T00:32:00-07:00
key3 = 1979-05-27T00:32:00.999999-07:00


################################################################################
## Array

# Arrays are square brackets with other primitives inside. Whitespace is
# ignored. Elements are separated by commas. Data types may not be mixed.

[array]

key1 = [ 1, 2, 3 ]
key2 = [ ""red"", ""yellow"", ""green"" ]
key3 = [ [ 1, 2 ], [3, 4, 5] ]
key4 = [ [ 1, 2 ], [""a"", ""b"", ""c""] ] # this is ok

# Arrays can also be multiline. So in addition to ignoring whitespace, arrays
# also ignore newlines between the brackets.  Terminating commas are ok before
# the closing bracket.

key5 = [
  1, 2, 3
]
key6 = [
  1,
  2, # this is ok
]


################################################################################
## Array of Tables

# These can be expressed by using a table name in double brackets. Each table
# with the same double bracketed name will be an element in the array. The
# tables are inserted in the order encountered.

[[products]]

name = ""Hammer""
sku = 738594937

[[products]]

[[products]]

name = ""Nail""
sku = 284758393
color = ""gray""


# You can create nested arrays of tables as well.

[[fruit]]
  name = ""apple""

  [fruit.physical]
    color = ""red""
    shape = ""round""

  [[fruit.variety]]
    name = ""red delicious""

  [[fruit.variety]]
    name = ""granny smith""

[[fruit]]
  name = ""banana""

  [[fruit.variety]]
    name = ""plantain""
") = true.
Proof. vm_compute. reflexivity. Qed.

(** /repo/assets/valid/example.toml *)
Example valid_example_toml : verify_valid (
ulit "best-day-ever = 1987-07-05T17:45:00Z

[numtheory]
boring = false
perfection = [6, 28, 496]
") = true.
Proof. vm_compute. reflexivity. Qed.

(** /repo/assets/valid/float.toml *)
Example valid_float_toml : verify_valid (
ulit "pi = 3.14
negpi = -3.14
") = true.
Proof. vm_compute. reflexivity. Qed.

(** /repo/assets/valid/hard_example.toml *)
Example valid_hard_example_toml : verify_valid (
ulit "# Test file for TOML
# Only this one tries to emulate a TOML file written by a user of the kind of parser writers probably hate
# This part you'll really hate

[the]
test_string = ""You'll hate me after this - #""          # "" Annoying, isn't it?

    [the.hard]
    test_array = [ ""] "", "" # ""]      # ] There you go, parse this!
    test_array2 = [ ""Test #11 ]proved that"", ""Experiment #9 was a success"" ]
    # You didn't think it'd as easy as chucking out the last #, did you?
    another_test_string = "" Same thing, but with a string #""
    harder_test_string = "" And when \""'s are in the string, along with # \""""   # ""and comments are there too""
    # Things will get harder

        [the.hard.""bit#""]
        ""what?"" = ""You don't think some user won't do that?""
        multi_line_array = [
            ""]"",
            # ] Oh yes I did
            ]

# Each of the following keygroups/key value pairs should produce an error. Uncomment to them to test

#[error]   if you didn't catch this, your parser is broken
#string = ""Anything other than tabs, spaces and newline after a keygroup or key value pair has ended should produce an error unless it is a comment""   like this
#array = [
#         ""This might most likely happen in multiline arrays"",
#         Like here,
#         ""or here,
#         and here""
#         ]     End of array comment, forgot the #
#number = 3.14  pi <--again forgot the #         
") = true.
Proof. vm_compute. reflexivity. Qed.

(** /repo/assets/valid/implicit-and-explicit-after.toml *)
Example valid_implicit_and_explicit_after_toml : verify_valid (
ulit "[a.b.c]
answer = 42

[a]
better = 43
") = true.
Proof. vm_compute. reflexivity. Qed.

(** /repo/assets/valid/implicit-and-explicit-before.toml *)
Example valid_implicit_and_explicit_before_toml : verify_valid (
ulit "[a]
better = 43

[a.b.c]
answer = 42
") = true.
Proof. vm_compute. reflexivity. Qed.

(** /repo/assets/valid/implicit-groups.toml *)
Example valid_implicit_groups_toml : verify_valid (
ulit "[a.b.c]
answer = 42
") = true.
Proof. vm_compute. reflexivity. Qed.

(** /repo/assets/valid/integer.toml *)
Example valid_integer_toml : verify_valid (
ulit "answer = 42
neganswer = -42
") = true.
Proof. vm_compute. reflexivity. Qed.

(** /repo/assets/valid/key-equals-nospace.toml *)
Example valid_key_equals_nospace_toml : verify_valid (
ulit "answer=42
") = true.
Proof. vm_compute. reflexivity. Qed.

(** /repo/assets/valid/key-space.toml *)
Example valid_key_space_toml : verify_valid (
ulit """a b"" = 1
") = true.
Proof. vm_compute. reflexivity. Qed.

(** /repo/assets/valid/key-special-chars.toml *)
Example valid_key_special_chars_toml : verify_valid (
ulit """~!@$^&*()_+-`1234567890[]|/?><.,;:'"" = 1
") = true.
Proof. vm_compute. reflexivity. Qed.

(** /repo/assets/valid/long-float.toml *)
Example valid_long_float_toml : verify_valid (
ulit "longpi = 3.141592653589793
neglongpi = -3.141592653589793
") = true.
Proof. vm_compute. reflexivity. Qed.

(** /repo/assets/valid/long-integer.toml *)
Example valid_long_integer_toml : verify_valid (
ulit "answer = 9223372036854775807
neganswer = -9223372036854775808
") = true.
Proof. vm_compute. reflexivity. Qed.

(** /repo/assets/valid/multiline-string.toml *)
Example valid_multiline_string_toml : verify_valid (
ulit "multiline_empty_one = """"""""""""
multiline_empty_two = """"""
""""""
multiline_empty_three = """"""\
    """"""
multiline_empty_four = """"""\
   \
   \
   """"""

equivalent_one = ""The quick brown fox jumps over the lazy dog.""
equivalent_two = """"""
The quick brown \


  fox jumps over \
    the lazy dog.""""""

equivalent_three = """"""\
       The quick brown \
       fox jumps over \
       the lazy dog.\
       """"""
") = true.
Proof. vm_compute. reflexivity. Qed.

(** /repo/assets/valid/raw-multiline-string.toml *)
Example valid_raw_multiline_string_toml : verify_valid (
ulit "oneline = '''This string has a ' quote character.'''
firstnl = '''
This string has a ' quote character.'''
multiline = '''
This string
has ' a quote character
and more than
one newline
in it.'''
") = true.
Proof. vm_compute. reflexivity. Qed.

(** /repo/assets/valid/raw-string.toml *)
Example valid_raw_string_toml : verify_valid (
ulit "backspace = 'This string has a \b backspace character.'
tab = 'This string has a \t tab character.'
newline = 'This string has a \n new line character.'
formfeed = 'This string has a \f form feed character.'
carriage = 'This string has a \r carriage return character.'
slash = 'This string has a \/ slash character.'
backslash = 'This string has a \\ backslash character.'
") = true.
Proof. vm_compute. reflexivity. Qed.

(** /repo/assets/valid/string-empty.toml *)
Example valid_string_empty_toml : verify_valid (
ulit "answer = """"
") = true.
Proof. vm_compute. reflexivity. Qed.

(** /repo/assets/valid/string-escapes.toml *)
Example valid_string_escapes_toml : verify_valid (
ulit "backspace = ""This string has a \b backspace character.""
tab = ""This string has a \t tab character.""
newline = ""This string has a \n new line character.""
formfeed = ""This string has a \f form feed character.""
carriage = ""This string has a \r carriage return character.""
quote = ""This string has a \"" quote character.""
backslash = ""This string has a \\ backslash character.""
notunicode1 = ""This string does not have a unicode \\u escape.""
notunicode2 = ""This string does not have a unicode \u005Cu escape.""
notunicode3 = ""This string does not have a unicode \\u0075 escape.""
notunicode4 = ""This string does not have a unicode \\\u0075 escape.""
") = true.
Proof. vm_compute. reflexivity. Qed.

(** /repo/assets/valid/string-simple.toml *)
Example valid_string_simple_toml : verify_valid (
ulit "answer = ""You are not drinking enough whisky.""
") = true.
Proof. vm_compute. reflexivity. Qed.

(** /repo/assets/valid/string-with-pound.toml *)
Example valid_string_with_pound_toml : verify_valid (
ulit "pound = ""We see no # comments here.""
poundcomment = ""But there are # some comments here."" # Did I # mess you up?
") = true.
Proof. vm_compute. reflexivity. Qed.

(** /repo/assets/valid/table-array-implicit.toml *)
Example valid_table_array_implicit_toml : verify_valid (
ulit "[[albums.songs]]
name = ""Glory Days""
") = true.
Proof. vm_compute. reflexivity. Qed.

(** /repo/assets/valid/table-array-many.toml *)
Example valid_table_array_many_toml : verify_valid (
ulit "[[people]]
first_name = ""Bruce""
last_name = ""Springsteen""

[[people]]
first_name = ""Eric""
last_name = ""Clapton""

[[people]]
first_name = ""Bob""
last_name = ""Seger""
") = true.
Proof. vm_compute. reflexivity. Qed.

(** /repo/assets/valid/table-array-nest.toml *)
Example valid_table_array_nest_toml : verify_valid (
ulit "[[albums]]
name = ""Born to Run""

  [[albums.songs]]
  name = ""Jungleland""

  [[albums.songs]]
  name = ""Meeting Across the River""

[[albums]]
name = ""Born in the USA""
  
  [[albums.songs]]
  name = ""Glory Days""

  [[albums.songs]]
  name = ""Dancing in the Dark""
") = true.
Proof. vm_compute. reflexivity. Qed.

(** /repo/assets/valid/table-array-one.toml *)
Example valid_table_array_one_toml : verify_valid (
ulit "[[people]]
first_name = ""Bruce""
last_name = ""Springsteen""
") = true.
Proof. vm_compute. reflexivity. Qed.

(** /repo/assets/valid/table-empty.toml *)
Example valid_table_empty_toml : verify_valid (
ulit "[a]
") = true.
Proof. vm_compute. reflexivity. Qed.

(** /repo/assets/valid/table-sub-empty.toml *)
Example valid_table_sub_empty_toml : verify_valid (
ulit "[a]
[a.b]
") = true.
Proof. vm_compute. reflexivity. Qed.

(** /repo/assets/valid/table-whitespace.toml *)
Example valid_table_whitespace_toml : verify_valid (
ulit "[""valid key""]
") = true.
Proof. vm_compute. reflexivity. Qed.

(** /repo/assets/valid/table-with-pound.toml *)
Example valid_table_with_pound_toml : verify_valid (
ulit "[""key#group""]
answer = 42
") = true.
Proof. vm_compute. reflexivity. Qed.

(** /repo/assets/valid/tomlexample.toml *)
Example valid_tomlexample_toml : verify_valid (
ulit "# This is a TOML document.

title = ""TOML Example""

[owner]
name = ""Tom Preston-Werner""
dob = 1979-05-27T07:32:00-08:00 # First class dates

[database]
server = ""192.168.1.1""
ports = [ 8001, 8001, 8002 ]
connection_max = 5000
enabled = true

[servers]

  # Indentation (tabs and/or spaces) is allowed but not required
  [servers.alpha]
  ip = ""10.0.0.1""
  dc = ""eqdc10""

  [servers.beta]
  ip = ""10.0.0.2""
  dc = ""eqdc10""

[clients]
data = [ [""gamma"", ""delta""], [1, 2] ]

# Line breaks are OK when inside arrays
hosts = [
  ""alpha"",
  ""omega""
]") = true.
Proof. vm_compute. reflexivity. Qed.

(** /repo/assets/valid/tomlexample2.toml *)
Example valid_tomlexample2_toml : verify_valid (
ulit "# This is a TOML document. Boom.

title = ""TOML Example""

[owner]
name = ""Tom Preston-Werner""
organization = ""GitHub""
bio = ""GitHub Cofounder & CEO\nLikes tater tots and beer.""
dob = 1979-05-27T07:32:00Z # First class dates? Why not?

[database]
server = ""192.168.1.1""
ports = [ 8001, 8001, 8002 ]
connection_max = 5000
enabled = true

[servers]

  # You can indent as you please. Tabs or spaces. TOML don't care.
  [servers.alpha]
  ip = ""10.0.0.1""
  dc = ""eqdc10""

  [servers.beta]
  ip = ""10.0.0.2""
  dc = ""eqdc10""
  country = ""中国"" # This should be parsed as UTF-8

[clients]
data = [ [""gamma"", ""delta""], [1, 2] ] # just an update to make sure parsers support it

# Line breaks are OK when inside arrays
hosts = [
  ""alpha"",
  ""omega""
]

# Products

  [[products]]
  name = ""Hammer""
  sku = 738594937

  [[products]]
  name = ""Nail""
  sku = 284758393
  color = ""gray""
") = true.
Proof. vm_compute. reflexivity. Qed.

(** /repo/assets/valid/unicode-escape.toml *)
Example valid_unicode_escape_toml : verify_valid (
ulit "answer4 = ""\u03B4""
answer8 = ""\U000003B4""
") = true.
Proof. vm_compute. reflexivity. Qed.

(** /repo/assets/valid/unicode-literal.toml *)
Example valid_unicode_literal_toml : verify_valid (
ulit "answer = ""δ""
") = true.
Proof. vm_compute. reflexivity. Qed.

(** /repo/assets/invalid/array-mixed-types-arrays-and-ints.toml *)
Example invalid_array_mixed_types_arrays_and_ints_toml : verify_invalid (
ulit "arrays-and-ints =  [1, [""Arrays are not integers.""]]
") = true.
Proof. vm_compute. reflexivity. Qed.

(** /repo/assets/invalid/array-mixed-types-ints-and-floats.toml *)
Example invalid_array_mixed_types_ints_and_floats_toml : verify_invalid (
ulit "ints-and-floats = [1, 1.1]
") = true.
Proof. vm_compute. reflexivity. Qed.

(** /repo/assets/invalid/array-mixed-types-strings-and-ints.toml *)
Example invalid_array_mixed_types_strings_and_ints_toml : verify_invalid (
ulit "strings-and-ints = [""hi"", 42]
") = true.
Proof. vm_compute. reflexivity. Qed.

(** /repo/assets/invalid/datetime-malformed-no-leads.toml *)
Example invalid_datetime_malformed_no_leads_toml : verify_invalid (
ulit "no-leads = 1987-7-05T17:45:00Z
") = true.
Proof. vm_compute. reflexivity. Qed.

(** /repo/assets/invalid/datetime-malformed-no-secs.toml *)
Example invalid_datetime_malformed_no_secs_toml : verify_invalid (
ulit "no-secs = 1987-07-05T17:45Z
") = true.
Proof. vm_compute. reflexivity. Qed.

(** /repo/assets/invalid/datetime-malformed-no-t.toml *)
Example invalid_datetime_malformed_no_t_toml : verify_invalid (
ulit "no-t = 1987-07-0517:45:00Z
") = true.
Proof. vm_compute. reflexivity. Qed.

(** /repo/assets/invalid/datetime-malformed-with-milli.toml *)
Example invalid_datetime_malformed_with_milli_toml : verify_invalid (
ulit "with-milli = 1987-07-5T17:45:00.12Z
") = true.
Proof. vm_compute. reflexivity. Qed.

(** /repo/assets/invalid/duplicate-key-table.toml *)
Example invalid_duplicate_key_table_toml : verify_invalid (
ulit "[fruit]
type = ""apple""

[fruit.type]
apple = ""yes""
") = true.
Proof. vm_compute. reflexivity. Qed.

(** /repo/assets/invalid/duplicate-keys.toml *)
Example invalid_duplicate_keys_toml : verify_invalid (
ulit "dupe = false
dupe = true
") = true.
Proof. vm_compute. reflexivity. Qed.

(** /repo/assets/invalid/duplicate-tables.toml *)
Example invalid_duplicate_tables_toml : verify_invalid (
ulit "[a]
[a]
") = true.
Proof. vm_compute. reflexivity. Qed.

(** /repo/assets/invalid/empty-implicit-table.toml *)
Example invalid_empty_implicit_table_toml : verify_invalid (
ulit "[naughty..naughty]
") = true.
Proof. vm_compute. reflexivity. Qed.

(** /repo/assets/invalid/empty-table.toml *)
Example invalid_empty_table_toml : verify_invalid (
ulit "[]
") = true.
Proof. vm_compute. reflexivity. Qed.

(** /repo/assets/invalid/float-no-leading-zero.toml *)
Example invalid_float_no_leading_zero_toml : verify_invalid (
ulit "answer = .12345
neganswer = -.12345
") = true.
Proof. vm_compute. reflexivity. Qed.

(** /repo/assets/invalid/float-no-trailing-digits.toml *)
Example invalid_float_no_trailing_digits_toml : verify_invalid (
ulit "answer = 1.
neganswer = -1.
") = true.
Proof. vm_compute. reflexivity. Qed.

(** /repo/assets/invalid/key-after-array.toml *)
Example invalid_key_after_array_toml : verify_invalid (
ulit "[[agencies]] owner = ""S Cjelli""
") = true.
Proof. vm_compute. reflexivity. Qed.

(** /repo/assets/invalid/key-after-table.toml *)
Example invalid_key_after_table_toml : verify_invalid (
ulit "[history] guard = ""sleeping""
") = true.
Proof. vm_compute. reflexivity. Qed.

(** /repo/assets/invalid/key-empty.toml *)
Example invalid_key_empty_toml : verify_invalid (
ulit " = 1
") = true.
Proof. vm_compute. reflexivity. Qed.

(** /repo/assets/invalid/key-hash.toml *)
Example invalid_key_hash_toml : verify_invalid (
ulit "a# = 1
") = true.
Proof. vm_compute. reflexivity. Qed.

(** /repo/assets/invalid/key-newline.toml *)
Example invalid_key_newline_toml : verify_invalid (
ulit "a
= 1
") = true.
Proof. vm_compute. reflexivity. Qed.

(** /repo/assets/invalid/key-open-bracket.toml *)
Example invalid_key_open_bracket_toml : verify_invalid (
ulit "[abc = 1
") = true.
Proof. vm_compute. reflexivity. Qed.

(** /repo/assets/invalid/key-single-open-bracket.toml *)
Example invalid_key_single_open_bracket_toml : verify_invalid (
ulit "[") = true.
Proof. vm_compute. reflexivity. Qed.

(** /repo/assets/invalid/key-space.toml *)
Example invalid_key_space_toml : verify_invalid (
ulit "a b = 1") = true.
Proof. vm_compute. reflexivity. Qed.

(** /repo/assets/invalid/key-start-bracket.toml *)
Example invalid_key_start_bracket_toml : verify_invalid (
ulit "[a]
[xyz = 5
[b]
") = true.
Proof. vm_compute. reflexivity. Qed.

(** /repo/assets/invalid/key-two-equals.toml *)
Example invalid_key_two_equals_toml : verify_invalid (
ulit "key= = 1
") = true.
Proof. vm_compute. reflexivity. Qed.

(** /repo/assets/invalid/string-bad-byte-escape.toml *)
Example invalid_string_bad_byte_escape_toml : verify_invalid (
ulit "naughty = ""\xAg""
") = true.
Proof. vm_compute. reflexivity. Qed.

(** /repo/assets/invalid/string-bad-escape.toml *)
Example invalid_string_bad_escape_toml : verify_invalid (
ulit "invalid-escape = ""This string has a bad \a escape character.""
") = true.
Proof. vm_compute. reflexivity. Qed.

(** /repo/assets/invalid/string-byte-escapes.toml *)
Example invalid_string_byte_escapes_toml : verify_invalid (
ulit "answer = ""\x33""
") = true.
Proof. vm_compute. reflexivity. Qed.

(** /repo/assets/invalid/string-no-close.toml *)
Example invalid_string_no_close_toml : verify_invalid (
ulit "no-ending-quote = ""One time, at band camp
") = true.
Proof. vm_compute. reflexivity. Qed.

(** /repo/assets/invalid/table-array-implicit.toml *)
Example invalid_table_array_implicit_toml : verify_invalid (
ulit "# This test is a bit tricky. It should fail because the first use of
# `[[albums.songs]]` without first declaring `albums` implies that `albums`
# must be a table. The alternative would be quite weird. Namely, it wouldn't
# comply with the TOML spec: ""Each double-bracketed sub-table will belong to 
# the most *recently* defined table element *above* it.""
#
# This is in contrast to the *valid* test, table-array-implicit where
# `[[albums.songs]]` works by itself, so long as `[[albums]]` isn't declared
# later. (Although, `[albums]` could be.)
[[albums.songs]]
name = ""Glory Days""

[[albums]]
name = ""Born in the USA""
") = true.
Proof. vm_compute. reflexivity. Qed.

(** /repo/assets/invalid/table-array-malformed-bracket.toml *)
Example invalid_table_array_malformed_bracket_toml : verify_invalid (
ulit "[[albums]
name = ""Born to Run""
") = true.
Proof. vm_compute. reflexivity. Qed.

(** /repo/assets/invalid/table-array-malformed-empty.toml *)
Example invalid_table_array_malformed_empty_toml : verify_invalid (
ulit "[[]]
name = ""Born to Run""
") = true.
Proof. vm_compute. reflexivity. Qed.

(** /repo/assets/invalid/table-empty.toml *)
Example invalid_table_empty_toml : verify_invalid (
ulit "[]
") = true.
Proof. vm_compute. reflexivity. Qed.

(** /repo/assets/invalid/table-nested-brackets-close.toml *)
Example invalid_table_nested_brackets_close_toml : verify_invalid (
ulit "[a]b]
zyx = 42
") = true.
Proof. vm_compute. reflexivity. Qed.

(** /repo/assets/invalid/table-nested-brackets-open.toml *)
Example invalid_table_nested_brackets_open_toml : verify_invalid (
ulit "[a[b]
zyx = 42
") = true.
Proof. vm_compute. reflexivity. Qed.

(** /repo/assets/invalid/table-whitespace.toml *)
Example invalid_table_whitespace_toml : verify_invalid (
ulit "[invalid key]") = true.
Proof. vm_compute. reflexivity. Qed.

(** /repo/assets/invalid/table-with-pound.toml *)
Example invalid_table_with_pound_toml : verify_invalid (
ulit "[key#group]
answer = 42") = true.
Proof. vm_compute. reflexivity. Qed.

(** /repo/assets/invalid/text-after-array-entries.toml *)
Example invalid_text_after_array_entries_toml : verify_invalid (
ulit "array = [
  ""Is there life after an array separator?"", No
  ""Entry""
]
") = true.
Proof. vm_compute. reflexivity. Qed.

(** /repo/assets/invalid/text-after-integer.toml *)
Example invalid_text_after_integer_toml : verify_invalid (
ulit "answer = 42 the ultimate answer?
") = true.
Proof. vm_compute. reflexivity. Qed.

(** /repo/assets/invalid/text-after-string.toml *)
Example invalid_text_after_string_toml : verify_invalid (
ulit "string = ""Is there life after strings?"" No.
") = true.
Proof. vm_compute. reflexivity. Qed.

(** /repo/assets/invalid/text-after-table.toml *)
Example invalid_text_after_table_toml : verify_invalid (
ulit "[error] this shouldn't be here
") = true.
Proof. vm_compute. reflexivity. Qed.

(** /repo/assets/invalid/text-before-array-separator.toml *)
Example invalid_text_before_array_separator_toml : verify_invalid (
ulit "array = [
  ""Is there life before an array separator?"" No,
  ""Entry""
]
") = true.
Proof. vm_compute. reflexivity. Qed.

(** /repo/assets/invalid/text-in-array.toml *)
Example invalid_text_in_array_toml : verify_invalid (
ulit "array = [
  ""Entry 1"",
  I don't belong,
  ""Entry 2"",
]
") = true.
Proof. vm_compute. reflexivity. Qed.

(** /repo/tests/get_set.rs:84-108 *)
Definition tt_doc : str := ulit "fish = ""halibut""
[[foo.""bar""]]
baz = 12345
qux = 1981-04-15
[[foo.""bar""]]
baz = 'something'
qux = '''other'''
[[foo.quality]]
furniture = ""chair""
[foo.quality.machine.parts.service]
""ƥèřïôδ"" = 24.7
""inline table"" = { drink = 5.5, meal = [ { start = 5 }, { start = 1980-05-14, end = 2002-10-19 } ], dessert = '''cake''' }
[[foo.quality.labor]]
Name = 'Rïçλářδ'
[[foo.quality.labor]]
Name = '§ƭèřℓïñϱ Âřçλèř'
[[foo.quality]]
money = 789.0123
[[foo.""bar""]]
baz = 2016-03-10T12:31:02+07:30
qux = """"""ƒáβúℓôúƨ δïñôƨáúř""""""
array = [{one = 1}, {two = 2}, {you = [""good"", """"""bye""""""], fire = ""truck""}, {three = 3}]
[foo]
""δïáϱñôƨïƨ"" = true
""ƥřôϱñôƨïƨ"" = ""not good""
hypnosis = 987654321
".

(** /repo/src/internals/parser.rs:435-458 *)
Definition car_doc : str := ulit "animal = ""bear""

[[car.owners]]
Name = """"""Bob Jones""""""
Age = 25
[[car.owners]]
Name = 'Jane Doe'
Age = 44

[car.interior.seats]
type = '''fabric'''
count = 5

[car]
model = ""Civic""
""ωλèèℓƨ"" = 4
""ƭôƥ ƨƥèèδ"" = 124.56
""Date of Manufacture"" = 2007-05-16T10:12:13.2324+04:00
drivers = [""Bob"", ""Jane"", ""John"", ""Michael"", { disallowed = ""Chris"", banned=""Sally""}]
properties = { color = ""red"", ""plate number"" = ""ABC 345"",
               accident_dates = [2008-09-29, 2011-01-16, 2014-11-30T03:13:54]}
".

(** `Value::Array(Rc::new(vec![..]))` of unwrapped values, e.g.
    /repo/tests/get_set.rs:47-49 *)
Fixpoint oarr_ (l : list (option value)) : option (list value) :=
  match l with
  | [] => Some []
  | Some v :: l' => match oarr_ l' with Some r => Some (v :: r) | None => None end
  | None :: _ => None
  end.
(** /repo/tests/get_set.rs:47-49 *)
Definition oarr (l : list (option value)) : option value :=
  match oarr_ l with Some r => Some (VArray r) | None => None end.
(** `Value::InlineTable(Rc::new(vec![..]))`, /repo/tests/get_set.rs:43-46 *)
Definition otab (l : list (str * option value)) : option value :=
  match oarr_ (map snd l) with
  | Some r => Some (VInlineTable (combine (map fst l) r))
  | None => None
  end.

(** state after parsing, updates and their results *)
Definition after (i : str) (l : list (str * option value)) : res (pst * list bool) :=
  let? (s, _) := run i in sets l s.
Definition is_ok {A} (r : res A) : bool := match r with Ok _ => true | _ => false end.

(** /repo/tests/get_set.rs:11-81 *)
Definition out_sets := [(ulit "car.interior.seats.type", (basic_string (ulit "leather")));
   (ulit "car.interior.seats.type", (basic_string (ulit "vinyl")));
   (ulit "car.owners[0].Age", (float_from_str (ulit "19.5")));
   (ulit "car.owners[1].Name", (ml_basic_string (ulit "Steve Parker")));
   (ulit "car.drivers[4].banned", (datetime_from_int 2013 9 23 17 34 2));
   (ulit "car.properties.color", (Some (value_int 19)));
   (ulit "car.properties.accident_dates[2]", (Some (value_float (lit "3443.34"))));
   (ulit "car.drivers[1]", (ml_literal_string (ulit "Mark")));
   (ulit "car.properties", (otab [(ulit "make", (literal_string (ulit "Honda"))); (ulit "transmission", (Some (VBoolean true)))]));
   (ulit "car.drivers", (oarr [(basic_string (ulit "Phil")); (basic_string (ulit "Mary"))]));
   (ulit "car.properties", (otab [(ulit "prop1", (bool_from_str (ulit "TrUe"))); (ulit "prop2", (bool_from_str (ulit "FALSE"))); (ulit "prop3", (bool_from_str (ulit "truE"))); (ulit "prop4", (bool_from_str (ulit "false")))]));
   (ulit "car.drivers", (oarr [(Some (value_int 1)); (Some (value_int 2)); (Some (value_int 3)); (Some (value_int 4)); (Some (value_int 5)); (Some (value_int 6)); (Some (value_int 7)); (Some (value_int 8))]));
   (ulit "car.model", (literal_string (ulit "Accord")));
   (ulit "animal", (ml_basic_string (ulit "shark")))].

Example test_output_after_set :
  (let? (s, _) := after (ulit "animal = ""bear""

[[car.owners]]
Name = """"""Bob Jones""""""
Age = 25
[[car.owners]]
Name = 'Jane Doe'
Age = 44

[car.interior.seats]
type = '''fabric'''
count = 5

[car]
model = ""Civic""
""ωλèèℓƨ"" = 4
""ƭôƥ ƨƥèèδ"" = 124.56
""Date of Manufacture"" = 2007-05-16T10:12:13.2324+04:00
drivers = [""Bob"", ""Jane"", ""John"", ""Michael"", { disallowed = ""Chris"", banned=""Sally""}]
properties = { color = ""red"", ""plate number"" = ""ABC 345"",
              accident_dates = [2008-09-29, 2011-01-16, 2014-11-30T03:13:54]}
") out_sets in show_parser s)
  = Ok (ulit "animal = """"""shark""""""

[[car.owners]]
Name = """"""Bob Jones""""""
Age = 19.5
[[car.owners]]
Name = """"""Steve Parker""""""
Age = 44

[car.interior.seats]
type = ""vinyl""
count = 5

[car]
model = 'Accord'
""ωλèèℓƨ"" = 4
""ƭôƥ ƨƥèèδ"" = 124.56
""Date of Manufacture"" = 2007-05-16T10:12:13.2324+04:00
drivers = [1, 2, 3, 4, 5, 6, 7, 8]
properties = { prop1 = true, prop2 = false, prop3 = true, prop4 = false }
").
Proof. vm_compute. reflexivity. Qed.

(** /repo/tests/get_set.rs:111-118 *)
Example test_mixed_tables : (let? (_, r) := run tt_doc in Ok r) = Ok Full.
Proof. vm_compute. reflexivity. Qed.

(** /repo/tests/get_set.rs:219-254 *)

Example basic_get_1 :
  (let? (s, _) := after tt_doc [] in get_value s (ulit "fish")) = Ok (basic_string (ulit "halibut")).
Proof. vm_compute. reflexivity. Qed.

Example basic_get_2 :
  (let? (s, _) := after tt_doc [] in get_value s (ulit "foo.""δïáϱñôƨïƨ""")) = Ok (Some (VBoolean true)).
Proof. vm_compute. reflexivity. Qed.

Example basic_get_3 :
  (let? (s, _) := after tt_doc [] in get_value s (ulit "foo.""ƥřôϱñôƨïƨ""")) = Ok (basic_string (ulit "not good")).
Proof. vm_compute. reflexivity. Qed.

Example basic_get_4 :
  (let? (s, _) := after tt_doc [] in get_value s (ulit "foo.hypnosis")) = Ok (Some (value_int 987654321)).
Proof. vm_compute. reflexivity. Qed.

Example basic_get_5 :
  (let? (s, _) := after tt_doc [] in get_value s (ulit "foo.""bar""[0].baz")) = Ok (Some (value_int 12345)).
Proof. vm_compute. reflexivity. Qed.

Example basic_get_6 :
  (let? (s, _) := after tt_doc [] in get_value s (ulit "foo.""bar""[0].qux")) = Ok (date_from_int 1981 4 15).
Proof. vm_compute. reflexivity. Qed.

Example basic_get_7 :
  (let? (s, _) := after tt_doc [] in get_value s (ulit "foo.""bar""[1].baz")) = Ok (literal_string (ulit "something")).
Proof. vm_compute. reflexivity. Qed.

Example basic_get_8 :
  (let? (s, _) := after tt_doc [] in get_value s (ulit "foo.""bar""[1].qux")) = Ok (ml_literal_string (ulit "other")).
Proof. vm_compute. reflexivity. Qed.

Example basic_get_9 :
  (let? (s, _) := after tt_doc [] in get_value s (ulit "foo.quality[0].furniture")) = Ok (basic_string (ulit "chair")).
Proof. vm_compute. reflexivity. Qed.

Example basic_get_10 :
  (let? (s, _) := after tt_doc [] in get_value s (ulit "foo.quality[0].machine.parts.service.""ƥèřïôδ""")) = Ok (Some (value_float (lit "24.7"))).
Proof. vm_compute. reflexivity. Qed.

Example basic_get_11 :
  (let? (s, _) := after tt_doc [] in get_value s (ulit "foo.quality[0].machine.parts.service.""inline table"".drink")) = Ok (Some (value_float (lit "5.5"))).
Proof. vm_compute. reflexivity. Qed.

Example basic_get_12 :
  (let? (s, _) := after tt_doc [] in get_value s (ulit "foo.quality[0].machine.parts.service.""inline table"".meal[0].start")) = Ok (Some (value_int 5)).
Proof. vm_compute. reflexivity. Qed.

Example basic_get_13 :
  (let? (s, _) := after tt_doc [] in get_value s (ulit "foo.quality[0].machine.parts.service.""inline table"".meal[1].end")) = Ok (date_from_int 2002 10 19).
Proof. vm_compute. reflexivity. Qed.

Example basic_get_14 :
  (let? (s, _) := after tt_doc [] in get_value s (ulit "foo.quality[0].labor[0].Name")) = Ok (literal_string (ulit "Rïçλářδ")).
Proof. vm_compute. reflexivity. Qed.

Example basic_get_15 :
  (let? (s, _) := after tt_doc [] in get_value s (ulit "foo.quality[0].labor[1].Name")) = Ok (literal_string (ulit "§ƭèřℓïñϱ Âřçλèř")).
Proof. vm_compute. reflexivity. Qed.

Example basic_get_16 :
  (let? (s, _) := after tt_doc [] in get_value s (ulit "foo.quality[1].money")) = Ok (Some (value_float (lit "789.0123"))).
Proof. vm_compute. reflexivity. Qed.

Example basic_get_17 :
  (let? (s, _) := after tt_doc [] in get_value s (ulit "foo.""bar""[2].baz")) = Ok (datetime_offset_from_int 2016 3 10 12 31 2 43 7 30).
Proof. vm_compute. reflexivity. Qed.

Example basic_get_18 :
  (let? (s, _) := after tt_doc [] in get_value s (ulit "foo.""bar""[2].qux")) = Ok (ml_basic_string (ulit "ƒáβúℓôúƨ δïñôƨáúř")).
Proof. vm_compute. reflexivity. Qed.

Example basic_get_19 :
  (let? (s, _) := after tt_doc [] in get_value s (ulit "foo.""bar""[2].array[0].one")) = Ok (Some (value_int 1)).
Proof. vm_compute. reflexivity. Qed.

Example basic_get_20 :
  (let? (s, _) := after tt_doc [] in get_value s (ulit "foo.""bar""[2].array[2].you[0]")) = Ok (basic_string (ulit "good")).
Proof. vm_compute. reflexivity. Qed.

Example basic_get_21 :
  (let? (s, _) := after tt_doc [] in get_value s (ulit "foo.""bar""[2].array[2].you[1]")) = Ok (ml_basic_string (ulit "bye")).
Proof. vm_compute. reflexivity. Qed.

Example basic_get_22 :
  (let? (s, _) := after tt_doc [] in get_value s (ulit "foo.""bar""[2].array[2].fire")) = Ok (basic_string (ulit "truck")).
Proof. vm_compute. reflexivity. Qed.

Example basic_get_23 :
  (let? (s, _) := after tt_doc [] in get_value s (ulit "foo.""bar""[2].array[3].three")) = Ok (Some (value_int 3)).
Proof. vm_compute. reflexivity. Qed.

(** /repo/tests/get_set.rs:256-287 *)

Example get_children_24 :
  (let? (s, _) := after tt_doc [] in Ok (get_children s (ulit "fish"))) = Ok (Some (Count 0)).
Proof. vm_compute. reflexivity. Qed.

Example get_children_25 :
  (let? (s, _) := after tt_doc [] in Ok (get_children s (ulit "foo.""δïáϱñôƨïƨ"""))) = Ok (Some (Count 0)).
Proof. vm_compute. reflexivity. Qed.

Example get_children_26 :
  (let? (s, _) := after tt_doc [] in Ok (get_children s (ulit "foo.""bar"""))) = Ok (Some (Count 3)).
Proof. vm_compute. reflexivity. Qed.

Example get_children_27 :
  (let? (s, _) := after tt_doc [] in Ok (get_children s (ulit "foo.""bar""[0]"))) = Ok (Some (Keys [ulit "baz"; ulit "qux"])).
Proof. vm_compute. reflexivity. Qed.

Example get_children_28 :
  (let? (s, _) := after tt_doc [] in Ok (get_children s (ulit "foo.""bar""[1]"))) = Ok (Some (Keys [ulit "baz"; ulit "qux"])).
Proof. vm_compute. reflexivity. Qed.

Example get_children_29 :
  (let? (s, _) := after tt_doc [] in Ok (get_children s (ulit "foo.quality"))) = Ok (Some (Count 2)).
Proof. vm_compute. reflexivity. Qed.

Example get_children_30 :
  (let? (s, _) := after tt_doc [] in Ok (get_children s (ulit "foo.quality[0]"))) = Ok (Some (Keys [ulit "furniture"; ulit "machine"; ulit "labor"])).
Proof. vm_compute. reflexivity. Qed.

Example get_children_31 :
  (let? (s, _) := after tt_doc [] in Ok (get_children s (ulit "foo.quality[0].machine.parts.service"))) = Ok (Some (Keys [ulit """ƥèřïôδ"""; ulit """inline table"""])).
Proof. vm_compute. reflexivity. Qed.

Example get_children_32 :
  (let? (s, _) := after tt_doc [] in Ok (get_children s (ulit "foo.quality[0].machine.parts.service.""inline table"""))) = Ok (Some (Keys [ulit "drink"; ulit "meal"; ulit "dessert"])).
Proof. vm_compute. reflexivity. Qed.

Example get_children_33 :
  (let? (s, _) := after tt_doc [] in Ok (get_children s (ulit "foo.quality[0].machine.parts.service.""inline table"".meal"))) = Ok (Some (Count 2)).
Proof. vm_compute. reflexivity. Qed.

Example get_children_34 :
  (let? (s, _) := after tt_doc [] in Ok (get_children s (ulit "foo.quality[0].machine.parts.service.""inline table"".meal[1]"))) = Ok (Some (Keys [ulit "start"; ulit "end"])).
Proof. vm_compute. reflexivity. Qed.

Example get_children_35 :
  (let? (s, _) := after tt_doc [] in Ok (get_children s (ulit "foo.quality[0].labor"))) = Ok (Some (Count 2)).
Proof. vm_compute. reflexivity. Qed.

Example get_children_36 :
  (let? (s, _) := after tt_doc [] in Ok (get_children s (ulit "foo.quality[0].labor[0]"))) = Ok (Some (Keys [ulit "Name"])).
Proof. vm_compute. reflexivity. Qed.

Example get_children_37 :
  (let? (s, _) := after tt_doc [] in Ok (get_children s (ulit "foo.quality[0].labor[1]"))) = Ok (Some (Keys [ulit "Name"])).
Proof. vm_compute. reflexivity. Qed.

Example get_children_38 :
  (let? (s, _) := after tt_doc [] in Ok (get_children s (ulit "foo.quality[1]"))) = Ok (Some (Keys [ulit "money"])).
Proof. vm_compute. reflexivity. Qed.

Example get_children_39 :
  (let? (s, _) := after tt_doc [] in Ok (get_children s (ulit "foo.""bar""[2]"))) = Ok (Some (Keys [ulit "baz"; ulit "qux"; ulit "array"])).
Proof. vm_compute. reflexivity. Qed.

Example get_children_40 :
  (let? (s, _) := after tt_doc [] in Ok (get_children s (ulit "foo.""bar""[2].array"))) = Ok (Some (Count 4)).
Proof. vm_compute. reflexivity. Qed.

Example get_children_41 :
  (let? (s, _) := after tt_doc [] in Ok (get_children s (ulit "foo.""bar""[2].array[0]"))) = Ok (Some (Keys [ulit "one"])).
Proof. vm_compute. reflexivity. Qed.

Example get_children_42 :
  (let? (s, _) := after tt_doc [] in Ok (get_children s (ulit "foo.""bar""[2].array[1]"))) = Ok (Some (Keys [ulit "two"])).
Proof. vm_compute. reflexivity. Qed.

Example get_children_43 :
  (let? (s, _) := after tt_doc [] in Ok (get_children s (ulit "foo.""bar""[2].array[2]"))) = Ok (Some (Keys [ulit "you"; ulit "fire"])).
Proof. vm_compute. reflexivity. Qed.

Example get_children_44 :
  (let? (s, _) := after tt_doc [] in Ok (get_children s (ulit "foo.""bar""[2].array[2].you"))) = Ok (Some (Count 2)).
Proof. vm_compute. reflexivity. Qed.

Example get_children_45 :
  (let? (s, _) := after tt_doc [] in Ok (get_children s (ulit "foo.""bar""[2].array[3]"))) = Ok (Some (Keys [ulit "three"])).
Proof. vm_compute. reflexivity. Qed.

Example get_children_46 :
  (let? (s, _) := after tt_doc [] in Ok (get_children s (ulit "foo"))) = Ok (Some (Keys [ulit """bar"""; ulit "quality"; ulit """δïáϱñôƨïƨ"""; ulit """ƥřôϱñôƨïƨ"""; ulit "hypnosis"])).
Proof. vm_compute. reflexivity. Qed.

(** /repo/tests/get_set.rs:289-366 *)
Definition mixed_sets := [(ulit "fish", (Some (value_int 1)));
   (ulit "foo.""δïáϱñôƨïƨ""", (Some (value_int 2)));
   (ulit "foo.""ƥřôϱñôƨïƨ""", (Some (value_float (lit "1.2"))));
   (ulit "foo.hypnosis", (Some (value_float (lit "2.3"))));
   (ulit "foo.""bar""[0].baz", (Some (value_float (lit "3.4"))));
   (ulit "foo.""bar""[0].qux", (Some (VBoolean true)));
   (ulit "foo.""bar""[1].baz", (Some (VBoolean false)));
   (ulit "foo.""bar""[1].qux", (basic_string (ulit "ONE")));
   (ulit "foo.quality[0].furniture", (date_from_int 2000 1 1));
   (ulit "foo.quality[0].machine.parts.service.""ƥèřïôδ""", (datetime_from_int 2001 2 2 1 1 1));
   (ulit "foo.quality[0].machine.parts.service.""inline table""", (otab [(ulit "KEYONE", (literal_string (ulit "VALUEONE"))); (ulit "KEYTWO", (literal_string (ulit "VALUETWO")))]));
   (ulit "foo.quality[0].labor[0].Name", (ml_basic_string (ulit "TWO")));
   (ulit "foo.quality[0].labor[1].Name", (ml_literal_string (ulit "THREE")));
   (ulit "foo.quality[1].money", (match datetime_parse (lit "2002-03-03T02:02:02.01234-08:35") with Ok o => o | _ => None end));
   (ulit "foo.""bar""[2].baz", (match datetime_parse (lit "2003-04-04") with Ok o => o | _ => None end));
   (ulit "foo.""bar""[2].qux", (match datetime_parse (lit "2004-05-05T03:03:03") with Ok o => o | _ => None end));
   (ulit "foo.""bar""[2].array", (oarr [(Some (value_int 3)); (Some (value_int 4)); (Some (value_int 5)); (Some (value_int 6)); (Some (value_int 7))]))].

Example mixed_sets_all_true :
  (let? (_, bs) := after tt_doc mixed_sets in Ok (forallb (fun b => b) bs)) = Ok true.
Proof. vm_compute. reflexivity. Qed.

Example set_then_get_47 :
  (let? (s, _) := after tt_doc mixed_sets in get_value s (ulit "fish")) = Ok (Some (value_int 1)).
Proof. vm_compute. reflexivity. Qed.

Example set_then_get_48 :
  (let? (s, _) := after tt_doc mixed_sets in get_value s (ulit "foo.""δïáϱñôƨïƨ""")) = Ok (Some (value_int 2)).
Proof. vm_compute. reflexivity. Qed.

Example set_then_get_49 :
  (let? (s, _) := after tt_doc mixed_sets in get_value s (ulit "foo.""ƥřôϱñôƨïƨ""")) = Ok (Some (value_float (lit "1.2"))).
Proof. vm_compute. reflexivity. Qed.

Example set_then_get_50 :
  (let? (s, _) := after tt_doc mixed_sets in get_value s (ulit "foo.hypnosis")) = Ok (Some (value_float (lit "2.3"))).
Proof. vm_compute. reflexivity. Qed.

Example set_then_get_51 :
  (let? (s, _) := after tt_doc mixed_sets in get_value s (ulit "foo.""bar""[0].baz")) = Ok (Some (value_float (lit "3.4"))).
Proof. vm_compute. reflexivity. Qed.

Example set_then_get_52 :
  (let? (s, _) := after tt_doc mixed_sets in get_value s (ulit "foo.""bar""[0].qux")) = Ok (Some (VBoolean true)).
Proof. vm_compute. reflexivity. Qed.

Example set_then_get_53 :
  (let? (s, _) := after tt_doc mixed_sets in get_value s (ulit "foo.""bar""[1].baz")) = Ok (Some (VBoolean false)).
Proof. vm_compute. reflexivity. Qed.

Example set_then_get_54 :
  (let? (s, _) := after tt_doc mixed_sets in get_value s (ulit "foo.""bar""[1].qux")) = Ok (basic_string (ulit "ONE")).
Proof. vm_compute. reflexivity. Qed.

Example set_then_get_55 :
  (let? (s, _) := after tt_doc mixed_sets in get_value s (ulit "foo.quality[0].furniture")) = Ok (date_from_int 2000 1 1).
Proof. vm_compute. reflexivity. Qed.

Example set_then_get_56 :
  (let? (s, _) := after tt_doc mixed_sets in get_value s (ulit "foo.quality[0].machine.parts.service.""ƥèřïôδ""")) = Ok (datetime_from_int 2001 2 2 1 1 1).
Proof. vm_compute. reflexivity. Qed.

Example set_then_get_57 :
  (let? (s, _) := after tt_doc mixed_sets in get_value s (ulit "foo.quality[0].machine.parts.service.""inline table"".KEYONE")) = Ok (literal_string (ulit "VALUEONE")).
Proof. vm_compute. reflexivity. Qed.

Example set_then_get_58 :
  (let? (s, _) := after tt_doc mixed_sets in get_value s (ulit "foo.quality[0].machine.parts.service.""inline table"".KEYTWO")) = Ok (literal_string (ulit "VALUETWO")).
Proof. vm_compute. reflexivity. Qed.

Example set_then_get_59 :
  (let? (s, _) := after tt_doc mixed_sets in get_value s (ulit "foo.quality[0].labor[0].Name")) = Ok (ml_basic_string (ulit "TWO")).
Proof. vm_compute. reflexivity. Qed.

Example set_then_get_60 :
  (let? (s, _) := after tt_doc mixed_sets in get_value s (ulit "foo.quality[0].labor[1].Name")) = Ok (ml_literal_string (ulit "THREE")).
Proof. vm_compute. reflexivity. Qed.

Example set_then_get_61 :
  (let? (s, _) := after tt_doc mixed_sets in get_value s (ulit "foo.quality[1].money")) = Ok (match datetime_parse (lit "2002-03-03T02:02:02.01234-08:35") with Ok o => o | _ => None end).
Proof. vm_compute. reflexivity. Qed.

Example set_then_get_62 :
  (let? (s, _) := after tt_doc mixed_sets in get_value s (ulit "foo.""bar""[2].baz")) = Ok (match datetime_parse (lit "2003-04-04") with Ok o => o | _ => None end).
Proof. vm_compute. reflexivity. Qed.

Example set_then_get_63 :
  (let? (s, _) := after tt_doc mixed_sets in get_value s (ulit "foo.""bar""[2].qux")) = Ok (match datetime_parse (lit "2004-05-05T03:03:03") with Ok o => o | _ => None end).
Proof. vm_compute. reflexivity. Qed.

Example set_then_get_64 :
  (let? (s, _) := after tt_doc mixed_sets in get_value s (ulit "foo.""bar""[2].array[0]")) = Ok (Some (value_int 3)).
Proof. vm_compute. reflexivity. Qed.

Example set_then_get_65 :
  (let? (s, _) := after tt_doc mixed_sets in get_value s (ulit "foo.""bar""[2].array[1]")) = Ok (Some (value_int 4)).
Proof. vm_compute. reflexivity. Qed.

Example set_then_get_66 :
  (let? (s, _) := after tt_doc mixed_sets in get_value s (ulit "foo.""bar""[2].array[2]")) = Ok (Some (value_int 5)).
Proof. vm_compute. reflexivity. Qed.

Example set_then_get_67 :
  (let? (s, _) := after tt_doc mixed_sets in get_value s (ulit "foo.""bar""[2].array[3]")) = Ok (Some (value_int 6)).
Proof. vm_compute. reflexivity. Qed.

Example set_then_get_68 :
  (let? (s, _) := after tt_doc mixed_sets in get_value s (ulit "foo.""bar""[2].array[4]")) = Ok (Some (value_int 7)).
Proof. vm_compute. reflexivity. Qed.

(** /repo/tests/get_set.rs, test_mixed_mixed_array_fail *)
Example test_mixed_mixed_array_fail :
  (let? (_, r) := run (ulit "[[foo.""bar""]]
baz = 2016-03-10T12:31:02+07:30
qux = """"""ƒáβúℓôúƨ δïñôƨáúř""""""
array = [1, 2, {you = [""good"", """"""bye""""""], fire = ""truck""}, 3]
[owner]
a_key = ""a value""
") in Ok r)
  = Ok (FullError [EMixedArray (ulit "foo.""bar""[0].array") 4]).
Proof. vm_compute. reflexivity. Qed.

(** /repo/tests/get_set.rs, test_mixed_mixed_array_in_inline_table_fail *)
Example test_mixed_mixed_array_in_inline_table_fail :
  (let? (_, r) := run (ulit "[foo.quality.machine.parts.service]
""ƥèřïôδ"" = 24.7
""inline table"" = { drink = 5.5, meal = [ 6, { start = 1980-05-14, end = 2002-10-19 } ], dessert = '''cake''' }
[owner]
a_key = ""a value""
") in Ok r)
  = Ok (FullError [EMixedArray (ulit "foo.quality.machine.parts.service.""inline table"".meal") 3]).
Proof. vm_compute. reflexivity. Qed.

(** /repo/tests/get_set.rs, test_invalid_table_fail *)
Example test_invalid_table_fail :
  (let? (_, r) := run (ulit "[foo.quality]
""ƥèřïôδ"" = 24.7
[owner]
a_key = ""a value""
[foo.quality]
KEYONE = ""VALUEONE""
KEYTWO = ""VALUETWO""
") in Ok r)
  = Ok (FullError [EInvalidTable (lit "foo.quality") 5 [(lit "KEYONE", VString (lit "VALUEONE") SBasic); (lit "KEYTWO", VString (lit "VALUETWO") SBasic)]]).
Proof. vm_compute. reflexivity. Qed.

(** /repo/tests/get_set.rs, test_duplicate_key_fail *)
Example test_duplicate_key_fail :
  (let? (_, r) := run (ulit "[foo.quality]
""ƥèřïôδ"" = 24.7
[owner]
a_key = ""a value""
a_key = 'ANOTHER VALUE'
[foo.quality]
KEYONE = ""VALUEONE""
") in Ok r)
  = Ok (FullError [EDuplicateKey (lit "owner.a_key") 5 (VString (lit "ANOTHER VALUE") SLiteral); EInvalidTable (lit "foo.quality") 6 [(lit "KEYONE", VString (lit "VALUEONE") SBasic)]]).
Proof. vm_compute. reflexivity. Qed.

(** /repo/tests/get_set.rs, test_invalid_datetime_fail *)
Example test_invalid_datetime_fail :
  (let? (_, r) := run (ulit "[foo.quality]
""ƥèřïôδ"" = 24.7
[owner]
a_key = ""a value""
b_key = 2010-02-29T03:03:03.3333Z
[foo.quality]
KEYONE = ""VALUEONE""
") in Ok r)
  = Ok (FullError [EInvalidDateTime (lit "owner.b_key") 5 (lit "2010-02-29T03:03:03.3333Z"); EInvalidTable (lit "foo.quality") 6 [(lit "KEYONE", VString (lit "VALUEONE") SBasic)]]).
Proof. vm_compute. reflexivity. Qed.

Example test_nested_empty_table : (let? (_, r) := run (ulit "[foo]

[foo.bar]
key = 1234
") in Ok r) = Ok Full.
Proof. vm_compute. reflexivity. Qed.

Example test_nested_table_with_keys : verify_invalid (ulit "[foo]
error = true

[foo.bar]
key = 1234
") = true.
Proof. vm_compute. reflexivity. Qed.

(** /repo/src/internals/parser.rs, test_bare_key *)

Example test_bare_key_69 :
  (let? (s, _) := after car_doc [] in get_value s (ulit "animal")) = Ok (basic_string (ulit "bear")).
Proof. vm_compute. reflexivity. Qed.

(** /repo/src/internals/parser.rs, test_key_val *)

Example test_key_val_70 :
  (let? (s, _) := after car_doc [] in get_value s (ulit "car.model")) = Ok (basic_string (ulit "Civic")).
Proof. vm_compute. reflexivity. Qed.

(** /repo/src/internals/parser.rs, test_quoted_key_val_int *)

Example test_quoted_key_val_int_71 :
  (let? (s, _) := after car_doc [] in get_value s (ulit "car.""ωλèèℓƨ""")) = Ok (int_from_str (ulit "4")).
Proof. vm_compute. reflexivity. Qed.

(** /repo/src/internals/parser.rs, test_quoted_key_val_float *)

Example test_quoted_key_val_float_72 :
  (let? (s, _) := after car_doc [] in get_value s (ulit "car.""ƭôƥ ƨƥèèδ""")) = Ok (float_from_str (ulit "124.56")).
Proof. vm_compute. reflexivity. Qed.

(** /repo/src/internals/parser.rs, test_key_array *)

Example test_key_array_73 :
  (let? (s, _) := after car_doc [] in get_value s (ulit "car.drivers[0]")) = Ok (basic_string (ulit "Bob")).
Proof. vm_compute. reflexivity. Qed.

Example test_key_array_74 :
  (let? (s, _) := after car_doc [] in get_value s (ulit "car.drivers[1]")) = Ok (basic_string (ulit "Jane")).
Proof. vm_compute. reflexivity. Qed.

Example test_key_array_75 :
  (let? (s, _) := after car_doc [] in get_value s (ulit "car.drivers[2]")) = Ok (basic_string (ulit "John")).
Proof. vm_compute. reflexivity. Qed.

Example test_key_array_76 :
  (let? (s, _) := after car_doc [] in get_value s (ulit "car.drivers[3]")) = Ok (basic_string (ulit "Michael")).
Proof. vm_compute. reflexivity. Qed.

Example test_key_array_77 :
  (let? (s, _) := after car_doc [] in get_value s (ulit "car.drivers[4].disallowed")) = Ok (basic_string (ulit "Chris")).
Proof. vm_compute. reflexivity. Qed.

Example test_key_array_78 :
  (let? (s, _) := after car_doc [] in get_value s (ulit "car.drivers[4].banned")) = Ok (basic_string (ulit "Sally")).
Proof. vm_compute. reflexivity. Qed.

(** /repo/src/internals/parser.rs, test_key_inline_table *)

Example test_key_inline_table_79 :
  (let? (s, _) := after car_doc [] in get_value s (ulit "car.properties.color")) = Ok (basic_string (ulit "red")).
Proof. vm_compute. reflexivity. Qed.

Example test_key_inline_table_80 :
  (let? (s, _) := after car_doc [] in get_value s (ulit "car.properties.""plate number""")) = Ok (basic_string (ulit "ABC 345")).
Proof. vm_compute. reflexivity. Qed.

Example test_key_inline_table_81 :
  (let? (s, _) := after car_doc [] in get_value s (ulit "car.properties.accident_dates[0]")) = Ok (date_from_str (lit "2008") (lit "09") (lit "29")).
Proof. vm_compute. reflexivity. Qed.

Example test_key_inline_table_82 :
  (let? (s, _) := after car_doc [] in get_value s (ulit "car.properties.accident_dates[1]")) = Ok (date_from_int 2011 1 16).
Proof. vm_compute. reflexivity. Qed.

Example test_key_inline_table_83 :
  (let? (s, _) := after car_doc [] in get_value s (ulit "car.properties.accident_dates[2]")) = Ok (datetime_from_str (lit "2014") (lit "11") (lit "30") (lit "03") (lit "13") (lit "54")).
Proof. vm_compute. reflexivity. Qed.

(** /repo/src/internals/parser.rs, test_implicit_table *)

Example test_implicit_table_84 :
  (let? (s, _) := after car_doc [] in get_value s (ulit "car.interior.seats.type")) = Ok (ml_literal_string (ulit "fabric")).
Proof. vm_compute. reflexivity. Qed.

Example test_implicit_table_85 :
  (let? (s, _) := after car_doc [] in get_value s (ulit "car.interior.seats.count")) = Ok (int_from_str (ulit "5")).
Proof. vm_compute. reflexivity. Qed.

(** /repo/src/internals/parser.rs, test_array_table *)

Example test_array_table_86 :
  (let? (s, _) := after car_doc [] in get_value s (ulit "car.owners[0].Name")) = Ok (ml_basic_string (ulit "Bob Jones")).
Proof. vm_compute. reflexivity. Qed.

Example test_array_table_87 :
  (let? (s, _) := after car_doc [] in get_value s (ulit "car.owners[0].Age")) = Ok (Some (value_int 25)).
Proof. vm_compute. reflexivity. Qed.

Example test_array_table_88 :
  (let? (s, _) := after car_doc [] in get_value s (ulit "car.owners[1].Name")) = Ok (literal_string (ulit "Jane Doe")).
Proof. vm_compute. reflexivity. Qed.

Example test_array_table_89 :
  (let? (s, _) := after car_doc [] in get_value s (ulit "car.owners[1].Age")) = Ok (Some (value_int 44)).
Proof. vm_compute. reflexivity. Qed.

(** /repo/src/internals/parser.rs, test_get_root_children *)

Example test_get_root_children_90 :
  (let? (s, _) := after car_doc [] in Ok (get_children s (ulit ""))) = Ok (Some (Keys [ulit "animal"; ulit "car"])).
Proof. vm_compute. reflexivity. Qed.

(** /repo/src/internals/parser.rs, test_get_table_children *)

Example test_get_table_children_91 :
  (let? (s, _) := after car_doc [] in Ok (get_children s (ulit "car"))) = Ok (Some (Keys [ulit "owners"; ulit "interior"; ulit "model"; ulit """ωλèèℓƨ"""; ulit """ƭôƥ ƨƥèèδ"""; ulit """Date of Manufacture"""; ulit "drivers"; ulit "properties"])).
Proof. vm_compute. reflexivity. Qed.

(** /repo/src/internals/parser.rs, test_get_array_children *)

Example test_get_array_children_92 :
  (let? (s, _) := after car_doc [] in Ok (get_children s (ulit "car.drivers"))) = Ok (Some (Count 5)).
Proof. vm_compute. reflexivity. Qed.

(** /repo/src/internals/parser.rs, test_get_inline_table_children *)

Example test_get_inline_table_children_93 :
  (let? (s, _) := after car_doc [] in Ok (get_children s (ulit "car.properties"))) = Ok (Some (Keys [ulit "color"; ulit """plate number"""; ulit "accident_dates"])).
Proof. vm_compute. reflexivity. Qed.

(** /repo/src/internals/parser.rs, test_get_nested_inline_table_children *)

Example test_get_nested_inline_table_children_94 :
  (let? (s, _) := after car_doc [] in Ok (get_children s (ulit "car.drivers[4]"))) = Ok (Some (Keys [ulit "disallowed"; ulit "banned"])).
Proof. vm_compute. reflexivity. Qed.

(** /repo/src/internals/parser.rs, test_get_nested_array_children *)

Example test_get_nested_array_children_95 :
  (let? (s, _) := after car_doc [] in Ok (get_children s (ulit "car.properties.accident_dates"))) = Ok (Some (Count 3)).
Proof. vm_compute. reflexivity. Qed.

(** /repo/src/internals/parser.rs, test_implicit_table_children *)

Example test_implicit_table_children_96 :
  (let? (s, _) := after car_doc [] in Ok (get_children s (ulit "car.interior.seats"))) = Ok (Some (Keys [ulit "type"; ulit "count"])).
Proof. vm_compute. reflexivity. Qed.

(** /repo/src/internals/parser.rs, test_get_array_of_table_children *)

Example test_get_array_of_table_children_97 :
  (let? (s, _) := after car_doc [] in Ok (get_children s (ulit "car.owners"))) = Ok (Some (Count 2)).
Proof. vm_compute. reflexivity. Qed.

(** /repo/src/internals/parser.rs, test_get_array_of_table0_children *)

Example test_get_array_of_table0_children_98 :
  (let? (s, _) := after car_doc [] in Ok (get_children s (ulit "car.owners[0]"))) = Ok (Some (Keys [ulit "Name"; ulit "Age"])).
Proof. vm_compute. reflexivity. Qed.

(** /repo/src/internals/parser.rs, test_get_array_of_table1_children *)

Example test_get_array_of_table1_children_99 :
  (let? (s, _) := after car_doc [] in Ok (get_children s (ulit "car.owners[1]"))) = Ok (Some (Keys [ulit "Name"; ulit "Age"])).
Proof. vm_compute. reflexivity. Qed.

(** /repo/src/internals/parser.rs, test_set_bare_key *)

Example test_set_bare_key_100 :
  (let? (s, _) := after car_doc [(ulit "animal", (ml_basic_string (ulit "shark")))] in get_value s (ulit "animal")) = Ok (Some (VString (ulit "shark") SMLBasic)).
Proof. vm_compute. reflexivity. Qed.

(** /repo/src/internals/parser.rs, test_set_table_key *)

Example test_set_table_key_101 :
  (let? (s, _) := after car_doc [(ulit "car.model", (literal_string (ulit "Accord")))] in get_value s (ulit "car.model")) = Ok (Some (VString (ulit "Accord") SLiteral)).
Proof. vm_compute. reflexivity. Qed.

(** /repo/src/internals/parser.rs, test_set_array_element_key *)

Example test_set_array_element_key_102 :
  (let? (s, _) := after car_doc [(ulit "car.drivers[1]", (ml_literal_string (ulit "Mark")))] in get_value s (ulit "car.drivers[1]")) = Ok (Some (VString (ulit "Mark") SMLLiteral)).
Proof. vm_compute. reflexivity. Qed.

(** /repo/src/internals/parser.rs, test_set_nested_aray_element_key *)

Example test_set_nested_aray_element_key_103 :
  (let? (s, _) := after car_doc [(ulit "car.properties.accident_dates[2]", (Some (value_float (lit "3443.34"))))] in get_value s (ulit "car.properties.accident_dates[2]")) = Ok (Some (VFloat (lit "3443.34"))).
Proof. vm_compute. reflexivity. Qed.

(** /repo/src/internals/parser.rs, test_set_inline_table_element_key *)

Example test_set_inline_table_element_key_104 :
  (let? (s, _) := after car_doc [(ulit "car.properties.color", (Some (value_int 19)))] in get_value s (ulit "car.properties.color")) = Ok (Some (VInteger (lit "19"))).
Proof. vm_compute. reflexivity. Qed.

(** /repo/src/internals/parser.rs, test_set_nested_inline_table_element_key *)

Example test_set_nested_inline_table_element_key_105 :
  (let? (s, _) := after car_doc [(ulit "car.drivers[4].banned", (datetime_from_int 2013 9 23 17 34 2))] in get_value s (ulit "car.drivers[4].banned")) = Ok (datetime_from_str (lit "2013") (lit "09") (lit "23") (lit "17") (lit "34") (lit "02")).
Proof. vm_compute. reflexivity. Qed.

(** /repo/src/internals/parser.rs, test_truncate_array *)

Example test_truncate_array_106 :
  (let? (s, _) := after car_doc [(ulit "car.drivers", (oarr [(basic_string (ulit "Phil")); (basic_string (ulit "Mary"))]))] in get_value s (ulit "car.drivers")) = Ok (oarr [(Some (VString (ulit "Phil") SBasic)); (Some (VString (ulit "Mary") SBasic))]).
Proof. vm_compute. reflexivity. Qed.

(** /repo/src/internals/parser.rs, test_truncate_inline_table *)

Example test_truncate_inline_table_107 :
  (let? (s, _) := after car_doc [(ulit "car.properties", (otab [(ulit "make", (literal_string (ulit "Honda"))); (ulit "transmission", (Some (VBoolean true)))]))] in get_value s (ulit "car.properties")) = Ok (otab [(ulit "make", (Some (VString (ulit "Honda") SLiteral))); (ulit "transmission", (Some (VBoolean true)))]).
Proof. vm_compute. reflexivity. Qed.

(** /repo/src/internals/parser.rs, test_extend_array *)

Example test_extend_array_108 :
  (let? (s, _) := after car_doc [(ulit "car.drivers", (oarr [(Some (value_int 1)); (Some (value_int 2)); (Some (value_int 3)); (Some (value_int 4)); (Some (value_int 5)); (Some (value_int 6)); (Some (value_int 7)); (Some (value_int 8))]))] in get_value s (ulit "car.drivers")) = Ok (oarr [(Some (VInteger (lit "1"))); (Some (VInteger (lit "2"))); (Some (VInteger (lit "3"))); (Some (VInteger (lit "4"))); (Some (VInteger (lit "5"))); (Some (VInteger (lit "6"))); (Some (VInteger (lit "7"))); (Some (VInteger (lit "8")))]).
Proof. vm_compute. reflexivity. Qed.

(** /repo/src/internals/parser.rs, test_extend_inline_table *)

Example test_extend_inline_table_109 :
  (let? (s, _) := after car_doc [(ulit "car.properties", (otab [(ulit "prop1", (bool_from_str (ulit "TrUe"))); (ulit "prop2", (bool_from_str (ulit "FALSE"))); (ulit "prop3", (bool_from_str (ulit "truE"))); (ulit "prop4", (bool_from_str (ulit "false")))]))] in get_value s (ulit "car.properties")) = Ok (otab [(ulit "prop1", (Some (VBoolean true))); (ulit "prop2", (Some (VBoolean false))); (ulit "prop3", (Some (VBoolean true))); (ulit "prop4", (Some (VBoolean false)))]).
Proof. vm_compute. reflexivity. Qed.

(** /repo/src/internals/parser.rs, test_set_implicit_table_key *)

Example test_set_implicit_table_key_110 :
  (let? (s, _) := after car_doc [(ulit "car.interior.seats.type", (basic_string (ulit "leather")))] in get_value s (ulit "car.interior.seats.type")) = Ok (Some (VString (ulit "leather") SBasic)).
Proof. vm_compute. reflexivity. Qed.

(** /repo/src/internals/parser.rs, test_set_array_of_table0_key *)

Example test_set_array_of_table0_key_111 :
  (let? (s, _) := after car_doc [(ulit "car.owners[0].Age", (float_from_str (ulit "19.5")))] in get_value s (ulit "car.owners[0].Age")) = Ok (Some (VFloat (lit "19.5"))).
Proof. vm_compute. reflexivity. Qed.

(** /repo/src/internals/parser.rs, test_set_array_of_table1_key *)

Example test_set_array_of_table1_key_112 :
  (let? (s, _) := after car_doc [(ulit "car.owners[1].Name", (ml_basic_string (ulit "Steve Parker")))] in get_value s (ulit "car.owners[1].Name")) = Ok (Some (VString (ulit "Steve Parker") SMLBasic)).
Proof. vm_compute. reflexivity. Qed.

(** /repo/src/internals/parser.rs, test_truncate_array_check_keys *)

Example test_truncate_array_check_keys_113 :
  (let? (s, _) := after car_doc [(ulit "database.ports", (datetime_from_int 2000 2 16 10 31 6))] in get_value s (ulit "database.ports[0]")) = Ok None.
Proof. vm_compute. reflexivity. Qed.

Example test_truncate_array_check_keys_114 :
  (let? (s, _) := after car_doc [(ulit "database.ports", (datetime_from_int 2000 2 16 10 31 6))] in get_value s (ulit "database.ports[1]")) = Ok None.
Proof. vm_compute. reflexivity. Qed.

Example test_truncate_array_check_keys_115 :
  (let? (s, _) := after car_doc [(ulit "database.ports", (datetime_from_int 2000 2 16 10 31 6))] in get_value s (ulit "database.ports[2]")) = Ok None.
Proof. vm_compute. reflexivity. Qed.

Example test_truncate_array_check_keys_116 :
  (let? (s, _) := after car_doc [(ulit "database.ports", (datetime_from_int 2000 2 16 10 31 6))] in get_value s (ulit "database.ports[2][0]")) = Ok None.
Proof. vm_compute. reflexivity. Qed.

Example test_truncate_array_check_keys_117 :
  (let? (s, _) := after car_doc [(ulit "database.ports", (datetime_from_int 2000 2 16 10 31 6))] in get_value s (ulit "database.ports[2][1]")) = Ok None.
Proof. vm_compute. reflexivity. Qed.

(** /repo/src/internals/parser.rs, test_truncate_inline_table_check_keys *)

Example test_truncate_inline_table_check_keys_118 :
  (let? (s, _) := after car_doc [(ulit "database.servers", (datetime_from_str (lit "4000") (lit "02") (lit "27") (lit "01") (lit "59") (lit "59")))] in get_value s (ulit "database.servers.main")) = Ok None.
Proof. vm_compute. reflexivity. Qed.

Example test_truncate_inline_table_check_keys_119 :
  (let? (s, _) := after car_doc [(ulit "database.servers", (datetime_from_str (lit "4000") (lit "02") (lit "27") (lit "01") (lit "59") (lit "59")))] in get_value s (ulit "database.servers.failover1")) = Ok None.
Proof. vm_compute. reflexivity. Qed.

Example test_truncate_inline_table_check_keys_120 :
  (let? (s, _) := after car_doc [(ulit "database.servers", (datetime_from_str (lit "4000") (lit "02") (lit "27") (lit "01") (lit "59") (lit "59")))] in get_value s (ulit "database.servers.failover2")) = Ok None.
Proof. vm_compute. reflexivity. Qed.

Example test_truncate_inline_table_check_keys_121 :
  (let? (s, _) := after car_doc [(ulit "database.servers", (datetime_from_str (lit "4000") (lit "02") (lit "27") (lit "01") (lit "59") (lit "59")))] in get_value s (ulit "database.servers.failover2.something")) = Ok None.
Proof. vm_compute. reflexivity. Qed.

Example test_truncate_inline_table_check_keys_122 :
  (let? (s, _) := after car_doc [(ulit "database.servers", (datetime_from_str (lit "4000") (lit "02") (lit "27") (lit "01") (lit "59") (lit "59")))] in get_value s (ulit "database.servers.failover2.nothing")) = Ok None.
Proof. vm_compute. reflexivity. Qed.
