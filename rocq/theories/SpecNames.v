(** The functions of the standard library by name. *)
From Coq Require Import Strings.String.
From Verif Require Import Base Lexer Ast Program Value Text StdLib.

Definition plain_functions : list (string * std_fun) :=
  [("args", SArgs); ("assert", SAssert); ("bind", SBind); ("bytes", SBytes); ("catch", SCatch); ("cd", SCd);
   ("contains", SContains); ("cwd", SCwd); ("env", SEnv); ("error", SError); ("exit", SExit); ("export", SExport);
   ("float", SFloat); ("glob", SGlob); ("has_error", SHasError); ("import", SImport); ("int", SInt);
   ("is_empty", SIsEmpty); ("iter", SIter); ("len", SLen); ("panic", SPanic); ("pop", SPop); ("print", SPrint);
   ("println", SPrintln); ("push", SPush); ("rand", SRand); ("randint", SRandInt); ("randseed", SRandSeed);
   ("range", SRange); ("read", SRead); ("regex", SRegex); ("replace", SReplace); ("sleep", SSleep); ("sort", SSort);
   ("split", SSplit); ("substr", SSubstr); ("to_string", SToString); ("trim", STrim); ("type", SType);
   ("typecheck", STypecheck); ("try_typecheck", STryTypecheck)]%string.
Definition grouped_functions : list (string * string * std_fun) :=
  [("base64", "encode", SBase64Encode); ("base64", "decode", SBase64Decode); ("hex", "encode", SHexEncode);
   ("hex", "decode", SHexDecode); ("json", "encode", SJsonEncode); ("json", "decode", SJsonDecode)]%string.
Definition library : list (list bytes * std_fun) :=
  map (fun x => ([bs (fst x)], snd x)) plain_functions ++
  map (fun x => ([bs (fst (fst x)); bs (snd (fst x))], snd x)) grouped_functions.

Fixpoint dotted (path : list bytes) : bytes :=
  match path with [] => [] | k :: path' => bs "." ++ k ++ dotted path' end.

(** What is found along a path of keys *)
Inductive found (h : heap) : loc -> list bytes -> value -> Prop :=
| fo_last l k v : In (VStr k, v) (dict_entries h l) -> found h l [k] v
| fo_more l k l' path v : In (VStr k, VDict l') (dict_entries h l) -> found h l' path v -> found h l (k :: path) v.
Definition function_of (f : std_fun) : value := VFun (FRust (NStd f)).
(** Along the paths of the library the functions are found, one value along each path, and no other
    values than those and the dicts on the way. *)
Definition holds_library (h : heap) (l : loc) : Prop :=
  (forall path f, In (path, f) library -> found h l path (function_of f)) /\
  (forall path v v', found h l path v -> found h l path v' -> v = v') /\
  (forall path v, found h l path v -> (exists f, In (path, f) library /\ v = function_of f) \/
     ((exists l', v = VDict l') /\ exists k f, In (path ++ [k], f) library)).

(** The names by which native functions are shown *)
Inductive native_text : native -> bytes -> Prop :=
| nt_library path f : In (path, f) library -> native_text (NStd f) (bs "std" ++ dotted path)
| nt_bind self f : native_text (NBind self f) (bs "std.bind<impl>")
| nt_array a st : native_text (NIterArr a st) (bs "std.iter<impl>")
| nt_string s st : native_text (NIterStr s st) (bs "std.iter<impl>")
| nt_dict st : native_text (NIterDict st) (bs "std.iter<impl>")
| nt_ints st a b : native_text (NRangeInt st a b) (bs "std.range<impl>")
| nt_floats st a b : native_text (NRangeFloat st a b) (bs "std.range<impl>")
| nt_match p : native_text (NRegex RMatch p) (bs "std.regex<match>")
| nt_split p : native_text (NRegex RSplit p) (bs "std.regex<split>")
| nt_replace p : native_text (NRegex RReplace p) (bs "std.regex<replace>")
| nt_join st : native_text (NJoin st) (bs "<command>.join").

(** The expression [e.k1.k2...] *)
Definition along (e : xexpr) (path : list bytes) (p : pos) : xexpr :=
  fold_left (fun o k => XAccess o (XLit (LString k) p) p) path e.
