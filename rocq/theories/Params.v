(** CaseParamsParserBasic (case_params_parser.h) on top of the JSON library it includes (third_party/nlohmann/json.hpp 3.7.0).

    The text of the file is taken as already parsed: a text that is not JSON throws out of the constructor.  Numbers with a sign are
    "integer", without one "unsigned", with a point or exponent (or too large for 64 bits) "float" (json.hpp 8178-8219); floats are
    finite (overflow is a parse error), here rationals.  Messages are not modelled. *)
From Coq Require Import List Arith Bool ZArith QArith String Ascii.
Import ListNotations.
Local Open Scope nat_scope.

Inductive json : Type := JNull | JBool (b : bool) | JUns (z : Z) | JInt (z : Z) | JFloat (q : Q) | JStr (s : string) | JArr (l : list json) | JObj (l : list (string * json)).
(** values of an object: a std::map; of equal keys in the text the last one stays (json.hpp 4415-4420) *)
Fixpoint last_of (k : string) (l : list (string * json)) : option json :=
  match l with [] => None | (k', v) :: l => match last_of k l with Some v' => Some v' | None => if String.eqb k k' then Some v else None end end.
(** find, json.hpp 18353-18363: an empty answer on anything that is not an object *)
Definition jfind (j : json) (k : string) : option json := match j with JObj l => last_of k l | _ => None end.

(** result of get<T>: a value, an exception, or undefined behaviour (a float outside the range of the integer type) *)
Inductive conv (A : Type) : Type := Got (a : A) | Throws | Undef.
Arguments Got {A}. Arguments Throws {A}. Arguments Undef {A}.
Definition trunc (q : Q) : Z := Z.quot (Qnum q) (Zpos (Qden q)).
Definition wrap32 (z : Z) : Z := ((z + 2147483648) mod 4294967296 - 2147483648)%Z.
Definition wrap64 (z : Z) : Z := (z mod 18446744073709551616)%Z.
(** conversion of an integer to double *)
Section Model.
Variable to_double : Z -> Q.
(** from_json for int, json.hpp 3050-3078 *)
Definition get_int (j : json) : conv Z :=
  match j with
  | JUns z | JInt z => Got (wrap32 z)
  | JFloat q => if ((-2147483648 <=? trunc q) && (trunc q <=? 2147483647))%Z then Got (trunc q) else Undef
  | JBool b => Got (if b then 1 else 0)%Z
  | _ => Throws
  end.
(** get_arithmetic_value for double and for size_t, json.hpp 2809-2832 *)
Definition get_double (j : json) : conv Q := match j with JUns z | JInt z => Got (to_double z) | JFloat q => Got q | _ => Throws end.
Definition get_size (j : json) : conv Z :=
  match j with
  | JUns z => Got z
  | JInt z => Got (wrap64 z)
  | JFloat q => if ((0 <=? trunc q) && (trunc q <=? 18446744073709551615))%Z then Got (trunc q) else Undef
  | _ => Throws
  end.
Definition get_bool (j : json) : conv bool := match j with JBool b => Got b | _ => Throws end.
Definition get_str (j : json) : conv string := match j with JStr s => Got s | _ => Throws end.
(** from_json for vectors, json.hpp 2958-2977, 3000-3014: element by element *)
Fixpoint get_all {A} (f : json -> conv A) (l : list json) : conv (list A) :=
  match l with
  | [] => Got []
  | j :: l => match f j with Got a => match get_all f l with Got r => Got (a :: r) | Throws => Throws | Undef => Undef end | Throws => Throws | Undef => Undef end
  end.
Definition get_vec {A} (f : json -> conv A) (j : json) : conv (list A) := match j with JArr l => get_all f l | _ => Throws end.

(** what a call does to the program *)
Inductive outcome (A : Type) : Type := Returns (a : A) | Exits | Undefined | Uncaught.
Arguments Returns {A}. Arguments Exits {A}. Arguments Undefined {A}. Arguments Uncaught {A}.
(** the constructor, case_params_parser.h 44-61.  [file] is None when it cannot be opened, Some None when it is not JSON *)
Definition construct (file : option (option json)) : outcome json :=
  match file with
  | None => Exits
  | Some None => Uncaught
  | Some (Some raw) => match jfind raw "CaseParams" with Some p => Returns p | None => Exits end
  end.
(** StrictParse, 252-262 *)
Definition strict {A} (get : json -> conv A) (ps : json) (k : string) : outcome A :=
  match jfind ps k with None => Exits | Some v => match get v with Got a => Returns a | Throws => Exits | Undef => Undefined end end.
Definition parse_int := strict get_int.
Definition parse_double := strict get_double.
Definition parse_str := strict get_str.
Definition parse_bool := strict get_bool.
Definition parse_int_vec := strict (get_vec get_int).
Definition parse_size_vec := strict (get_vec get_size).
Definition parse_double_vec := strict (get_vec get_double).
(** ParseChar, 78-84 *)
Definition first_char (s : string) : ascii := match s with EmptyString => Ascii.zero | String c _ => c end.
Definition parse_char (ps : json) (k : string) : outcome ascii :=
  match strict get_str ps k with Returns s => Returns (first_char s) | Exits => Exits | Undefined => Undefined | Uncaught => Uncaught end.
(** Has and ParseXOr, 122-186 *)
Definition has (ps : json) (k : string) : bool := match jfind ps k with Some _ => true | None => false end.
Definition parse_or {A} (parse : json -> string -> outcome A) (ps : json) (k : string) (d : A) : outcome A := if has ps k then parse ps k else Returns d.
(** TryParseStrict, 264-272: the answer and the variable afterwards *)
Definition try_strict {A} (get : json -> conv A) (ps : json) (k : string) (out : A) : outcome (bool * A) :=
  match jfind ps k with None => Returns (false, out) | Some v => match get v with Got a => Returns (true, a) | Throws => Returns (false, out) | Undef => Undefined end end.
(** TryParseChar, 197-202 *)
Definition try_char (ps : json) (k : string) (out : ascii) : outcome (bool * ascii) :=
  match try_strict get_str ps k EmptyString with
  | Returns (true, s) => Returns (true, first_char s) | Returns (false, _) => Returns (false, out)
  | Exits => Exits | Undefined => Undefined | Uncaught => Uncaught end.
(** TryParseSizeTVec, 216-242; is_number_integer also holds of unsigned numbers, which are tested first *)
Fixpoint try_sizes (l : list json) (parsed : list Z) : option (list Z) :=
  match l with
  | [] => Some parsed
  | JUns z :: l => try_sizes l (parsed ++ [z])
  | JInt z :: l => if (z <? 0)%Z then None else try_sizes l (parsed ++ [z])
  | _ :: _ => None
  end.
Definition try_size_vec (ps : json) (k : string) (out : list Z) : outcome (bool * list Z) :=
  match jfind ps k with
  | Some (JArr l) => match try_sizes l [] with Some r => Returns (true, r) | None => Returns (false, out) end
  | _ => Returns (false, out)
  end.
End Model.
Arguments Returns {A}. Arguments Exits {A}. Arguments Undefined {A}. Arguments Uncaught {A}.
