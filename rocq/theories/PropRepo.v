(** * PropRepo: the model run on the test programs of the repository.

    These are tests of the model, not theorems about all programs: the
    programs of /repo/tests/full/nibble, which tests/full/main.rs:46-60 expects
    to compile, compile in the model. *)
From Coq Require Import String.
From Verif Require Import Source Main.
From Coq Require Import List.
Open Scope list_scope.

Definition accepts (s : string) : bool :=
  match chomp (fun _ _ => None) heck 100 (tokens_of s) with Ok _ => true | _ => false end.
(** tests/full/nibble/nibble_exp.nb *)
Definition nibble_exp_source : string := "let opt x = _ | x;
let plus x = !(/plus/ x . opt plus);
let star x = !(/star/ opt (x . star));

let Pattern_Whitespace = ""\n""|"" "";

let XID_Start =
    ""a"" | ""b"" | ""c"" | ""d"" | ""e"" | ""f"" | ""g"" | ""h"" |
    ""i"" | ""j"" | ""k"" | ""l"" | ""m"" | ""n"" | ""o"" | ""p"" |
    ""q"" | ""r"" | ""s"" | ""t"" | ""u"" | ""v"" | ""w"" | ""x"" |
    ""y"" | ""z"" |
    ""A"" | ""B"" | ""C"" | ""D"" | ""E"" | ""F"" | ""G"" | ""H"" |
    ""I"" | ""J"" | ""K"" | ""L"" | ""M"" | ""N"" | ""O"" | ""P"" |
    ""Q"" | ""R"" | ""S"" | ""T"" | ""U"" | ""V"" | ""W"" | ""X"" |
    ""Y"" | ""Z"" ;
let XID_Continue =
    XID_Start | ""_"" | ""0"" | ""1"" | ""2"" | ""3"" | ""4"" | ""5"" | ""6"" | ""7"" | ""8"" | ""9"" ;

let literal_char = XID_Continue;

let ws = star Pattern_Whitespace;

let punctuated x p = !(/rec/ x . opt (p . ws . rec));
let list x = ""("" . ws . !(/rec/ x . opt ("","" . ws . opt rec)) . "")"";

let epsilon = ""_"";
let ident = XID_Start . star XID_Continue;
let literal = ""\"""" . plus literal_char . ""\"""";
let parens expr = ""("" . ws . expr . "")"";
let fix expr = ""["" . ws . ident . ws . ""]"" . ws . parens expr;

let term expr =
      epsilon . ws
    | literal . ws
    | parens expr . ws
    | fix expr . ws
    | ident . ws . opt (list expr . ws)
    ;

let cat expr = punctuated (term expr) ""."";
let alt expr = punctuated (cat expr) ""|"";
match !alt;"%string.
(** tests/full/nibble/ratata.nb *)
Definition ratata_source : string := "let opt x = _ | x;
let plus x = !(/rec/ x . opt rec);
match plus ((""r"" | ""t"") . ""a"");
"%string.
(** tests/full/nibble/regex.nb *)
Definition regex_source : string := "let opt x = _ | x;
let plus x = !(/plus/ x . opt plus);
let star x = !(/star/ opt (x . star));

match plus ""a"" . star ""b"";
"%string.
(** tests/full/nibble/regex_fix.nb *)
Definition regex_fix_source : string := "let opt x = _ | x;
let ws = !(/star/ opt ("" "" . star));

match !(/rec/ ""a"" . opt (""."" . ws . rec));
"%string.
(** tests/full/nibble/sheep.nb *)
Definition sheep_source : string := "let opt x = _ | x;
let plus x = !(/rec/ x . opt rec);
match ""ba"" . plus ""a"";
"%string.
Example repo_tests : map accepts [nibble_exp_source; ratata_source; regex_source; regex_fix_source; sheep_source] = [true; true; true; true; true].
Proof. vm_compute. reflexivity. Qed.
