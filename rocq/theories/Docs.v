(** interpreter/src/builtins/docs.rs and the tables macros.rs:39-101 makes of the declarations of
    qstd/src: the documented signatures of the builtins.  The descriptions are left out. *)
From Verif Require Import Base.

(** docs.rs:18-25, 9-16, 1-7 *)
Record arg_doc := mkArgDoc { ad_name : rstring; ad_type : rstring; ad_optional : bool; ad_default : option rstring }.
Record builtin_doc := mkBuiltinDoc { bd_name : rstring; bd_args : list arg_doc; bd_returns : list rstring }.
Record group_doc := mkGroupDoc { gd_name : rstring; gd_builtins : list builtin_doc }.

(** macros.rs:45-58: parameters, and optional ones with their default as it is written. *)
Definition need (x ty : rstring) : arg_doc := mkArgDoc x ty false None.
Definition may (x ty default : rstring) : arg_doc := mkArgDoc x ty true (Some default).
Definition doc := mkBuiltinDoc.

(** core.rs:15-208 *)
Definition core_docs : list builtin_doc :=
  [ doc (str "get") [need (str "list") (str "list"); need (str "index") (str "int")] [str "any"];
    doc (str "set") [need (str "list") (str "list"); need (str "index") (str "int"); need (str "value") (str "any")] [str "list"];
    doc (str "slice") [need (str "list") (str "list"); need (str "start") (str "int"); need (str "end") (str "int")] [str "list"];
    doc (str "str") [need (str "arg") (str "any")] [str "str"];
    doc (str "bin") [need (str "val") (str "int")] [str "str"];
    doc (str "oct") [need (str "val") (str "int")] [str "str"];
    doc (str "hex") [need (str "val") (str "int")] [str "str"];
    doc (str "char") [need (str "val") (str "int")] [str "str"];
    doc (str "int_from_radix") [need (str "val") (str "str"); need (str "radix") (str "int32")] [str "int"];
    doc (str "int") [need (str "arg") (str "any")] [str "int"];
    doc (str "float") [need (str "arg") (str "any")] [str "float"];
    doc (str "bool") [need (str "arg") (str "any")] [str "bool"];
    doc (str "color") [need (str "arg") (str "any")] [str "color"];
    doc (str "len") [need (str "arg") (str "any")] [str "int"];
    doc (str "gettype") [need (str "arg") (str "any")] [str "str"] ].
(** math.rs:15-218 *)
Definition math_docs : list builtin_doc :=
  [ doc (str "log") [need (str "arg") (str "any")] [str "float"];
    doc (str "log2") [need (str "arg") (str "any")] [str "float"];
    doc (str "log10") [need (str "arg") (str "any")] [str "float"];
    doc (str "hash") [need (str "arg") (str "any")] [str "int"];
    doc (str "min") [need (str "a") (str "any"); need (str "b") (str "any")] [str "num"];
    doc (str "max") [need (str "a") (str "any"); need (str "b") (str "any")] [str "num"];
    doc (str "round") [need (str "a") (str "any")] [str "int"];
    doc (str "floor") [need (str "a") (str "any")] [str "int"];
    doc (str "ceil") [need (str "a") (str "any")] [str "int"];
    doc (str "fix") [need (str "a") (str "any"); need (str "digits") (str "int")] [str "num"];
    doc (str "clamp") [need (str "a") (str "num"); need (str "m") (str "num"); need (str "mm") (str "num")] [str "float"];
    doc (str "interp") [need (str "a") (str "num"); need (str "b") (str "num"); need (str "t") (str "num")] [str "float"];
    doc (str "abs") [need (str "a") (str "any")] [str "num"];
    doc (str "sin") [need (str "a") (str "num")] [str "float"];
    doc (str "cos") [need (str "a") (str "num")] [str "float"];
    doc (str "tan") [need (str "a") (str "num")] [str "float"];
    doc (str "asin") [need (str "a") (str "num")] [str "float"];
    doc (str "acos") [need (str "a") (str "num")] [str "float"];
    doc (str "atan") [need (str "a") (str "num")] [str "float"];
    doc (str "atan2") [need (str "a") (str "num"); need (str "b") (str "num")] [str "float"];
    doc (str "sqrt") [need (str "a") (str "num")] [str "float"];
    doc (str "random") [] [str "float"];
    doc (str "randbool") [] [str "bool"];
    doc (str "randint") [need (str "start") (str "int"); need (str "end") (str "int")] [str "int"];
    doc (str "randfloat") [need (str "start") (str "double"); need (str "end") (str "double")] [str "float"];
    doc (str "randchoice") [need (str "list") (str "list")] [str "any"] ].
(** colors.rs:14-222 *)
Definition colors_docs : list builtin_doc :=
  [ doc (str "rgba") [need (str "r") (str "u8"); need (str "g") (str "u8"); need (str "b") (str "u8"); need (str "a") (str "u8")] [str "color"];
    doc (str "rgb") [need (str "r") (str "u8"); need (str "g") (str "u8"); need (str "b") (str "u8")] [str "color"];
    doc (str "hsla") [need (str "h") (str "double"); need (str "s") (str "double"); need (str "l") (str "double"); need (str "a") (str "double")] [str "color"];
    doc (str "hsl") [need (str "h") (str "double"); need (str "s") (str "double"); need (str "l") (str "double")] [str "color"];
    doc (str "hsva") [need (str "h") (str "double"); need (str "s") (str "double"); need (str "v") (str "double"); need (str "a") (str "double")] [str "color"];
    doc (str "hsv") [need (str "h") (str "double"); need (str "s") (str "double"); need (str "v") (str "double")] [str "color"];
    doc (str "r") [need (str "c") (str "color")] [str "int"];
    doc (str "g") [need (str "c") (str "color")] [str "int"];
    doc (str "b") [need (str "c") (str "color")] [str "int"];
    doc (str "a") [need (str "c") (str "color")] [str "int"];
    doc (str "luma") [need (str "c") (str "color")] [str "float"];
    doc (str "hue") [need (str "c") (str "color")] [str "float"];
    doc (str "saturation") [need (str "c") (str "color")] [str "float"];
    doc (str "brightness") [need (str "c") (str "color")] [str "float"];
    doc (str "contrast") [need (str "c") (str "color")] [str "float"];
    doc (str "cdifference") [need (str "a") (str "color"); need (str "b") (str "color")] [str "float"];
    doc (str "invert") [need (str "c") (str "color")] [str "color"];
    doc (str "alpha") [need (str "c") (str "color"); need (str "a") (str "double")] [str "color"];
    doc (str "mix") [need (str "c1") (str "color"); need (str "c2") (str "color"); need (str "t") (str "double")] [str "color"];
    doc (str "lighten") [need (str "c") (str "color"); need (str "t") (str "double")] [str "color"];
    doc (str "darken") [need (str "c") (str "color"); need (str "t") (str "double")] [str "color"];
    doc (str "saturate") [need (str "c") (str "color"); need (str "t") (str "double")] [str "color"];
    doc (str "desaturate") [need (str "c") (str "color"); need (str "t") (str "double")] [str "color"];
    doc (str "fade") [need (str "c") (str "color"); need (str "t") (str "double")] [str "color"];
    doc (str "complement") [need (str "c") (str "color")] [str "color"];
    doc (str "contrast_color") [need (str "c") (str "color")] [str "color"];
    doc (str "random_color") [] [str "color"];
    doc (str "random_pastel_color") [] [str "color"];
    doc (str "random_rainbow_color") [] [str "color"];
    doc (str "rainbow_colors") [] [str "list"] ].
(** strings.rs:14-121 *)
Definition strings_docs : list builtin_doc :=
  [ doc (str "truncate") [need (str "s") (str "str"); need (str "len") (str "int"); may (str "ellipsis") (str "str") (str "String::from(""..."")")] [str "str"];
    doc (str "capitalize") [need (str "s") (str "str")] [str "str"];
    doc (str "title") [need (str "s") (str "str")] [str "str"];
    doc (str "uppercase") [need (str "s") (str "str")] [str "str"];
    doc (str "lowercase") [need (str "s") (str "str")] [str "str"];
    doc (str "split") [need (str "s") (str "str"); may (str "sep") (str "str") (str "String::from("" "")")] [str "list"];
    doc (str "join") [need (str "s") (str "list"); may (str "sep") (str "str") (str "String::from("""")")] [str "str"];
    doc (str "replace") [need (str "s") (str "str"); need (str "old") (str "str"); need (str "new") (str "str")] [str "str"];
    doc (str "trim") [need (str "s") (str "str")] [str "str"];
    doc (str "trim_start") [need (str "s") (str "str")] [str "str"];
    doc (str "trim_end") [need (str "s") (str "str")] [str "str"];
    doc (str "starts_with") [need (str "s") (str "str"); need (str "start") (str "str")] [str "bool"];
    doc (str "ends_with") [need (str "s") (str "str"); need (str "end") (str "str")] [str "bool"];
    doc (str "contains") [need (str "s") (str "str"); need (str "contains") (str "str")] [str "bool"];
    doc (str "chars") [need (str "s") (str "str")] [str "list"] ].
(** testing.rs:9-46 *)
Definition testing_docs : list builtin_doc :=
  [ doc (str "assert") [need (str "value") (str "bool")] [];
    doc (str "assert_eq") [need (str "a") (str "any"); need (str "b") (str "any")] [];
    doc (str "assert_ne") [need (str "a") (str "any"); need (str "b") (str "any")] [];
    doc (str "unreachable") [] [];
    doc (str "panic") [need (str "message") (str "str")] [];
    doc (str "todo") [] [] ].
(** io.rs:11-56 *)
Definition io_docs : list builtin_doc :=
  [ doc (str "println") [need (str "to_print") (str "rest")] [];
    doc (str "print") [need (str "to_print") (str "rest")] [];
    doc (str "debug") [need (str "to_print") (str "rest")] [];
    doc (str "input") [need (str "prompt") (str "str")] [str "str"];
    doc (str "readfile") [need (str "path") (str "str")] [str "str"] ].
(** time.rs:9-18 *)
Definition time_docs : list builtin_doc :=
  [ doc (str "now") [] [str "float"];
    doc (str "date") [] [str "str"] ].

(** macros.rs:60-72, qstd/src/lib.rs *)
Definition groups : list group_doc :=
  [ mkGroupDoc (str "core") core_docs;
    mkGroupDoc (str "math") math_docs;
    mkGroupDoc (str "colors") colors_docs;
    mkGroupDoc (str "strings") strings_docs;
    mkGroupDoc (str "testing") testing_docs;
    mkGroupDoc (str "io") io_docs;
    mkGroupDoc (str "time") time_docs ].
(** macros.rs:91-101: get_<group>_doc *)
Definition get_doc (g : group_doc) (name : rstring) : option builtin_doc :=
  find (fun d => seqb (bd_name d) name) (gd_builtins g).
