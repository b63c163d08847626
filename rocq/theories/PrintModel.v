(** Model of printing (proptest/util/unicode.cpp, printing.cpp, printing.hpp and the decodeXxx(ostream&, ...) functions
    of utf8string.cpp, cesu8string.cpp and utf16string.cpp).  The text written to a stream is the list of its
    characters.  The stream is in its default state when a value is printed: width 0, decimal, "C" locale; IosFlagSaver
    (utf8string.cpp:19-23) restores the flags.  The fill character, which stays '0', does not matter at width 0. *)
From Coq Require Import String Ascii List ZArith Bool.
From Verif Require Import Base Utf8Model Cesu8Model Utf16Model.
Import ListNotations.
Local Open Scope Z_scope.

(** What is written to the ostream of printing.cpp, printing.hpp and unicode.cpp.  (unicode.cpp:8-115.) *)
Definition text := list Z.

(** A string literal. (unicode.cpp:8-115, printing.cpp:10-58.) *)
Fixpoint lit (s : string) : text :=
  match s with EmptyString => [] | String a r => Z.of_N (N_of_ascii a) :: lit r end.

(** A digit as printed. (unicode.cpp:8-64, printing.cpp:60-112.) *)
Definition digitChar (d : Z) : Z := if d <? 10 then 48 + d else 87 + d.

(** [os << n] for an unsigned value in base [base] (std::dec, std::hex): the digits without leading zeros. (unicode.cpp:8-64, printing.cpp:60-112.) *)
Fixpoint digits (base : Z) (fuel : nat) (n : Z) : text :=
  match fuel with
  | O => []
  | S fuel' => if n <? base then [digitChar n] else digits base fuel' (n / base) ++ [digitChar (n mod base)]
  end.
(** The same with enough rounds for the number (unicode.cpp:8-64, printing.cpp:60-112). *)
Definition numeral (base n : Z) : text := digits base (S (Z.to_nat (Z.log2 n))) n.

(** [setfill('0') << setw(w)] before a number. *)
Definition pad (w : nat) (t : text) : text := repeat 48 (w - length t)%nat ++ t.
(** std::hex and setw(w): unicode.cpp:8-64. *)
Definition hex (w : nat) (n : Z) : text := pad w (numeral 16 n).

(** [os << val] for an integer. (printing.cpp:60-112.) *)
Definition dec (n : Z) : text := if n <? 0 then 45 :: numeral 10 (- n) else numeral 10 n.

(** unicode.cpp:8-23 codepage. *)
Definition codepage (code : Z) : text :=
  if code <? 0x10000 then
    lit "\u" ++ hex 2 (Z.shiftr (Z.land code 0xff00) 8) ++ hex 2 (Z.land code 0xff)
  else
    lit "\U" ++ hex 2 (Z.shiftr (Z.land code 0xff0000) 16) ++ hex 2 (Z.shiftr (Z.land code 0xff00) 8)
             ++ hex 2 (Z.land code 0xff).

(** unicode.cpp:32-37 charAsHex(os, c), cesu8string.cpp:55-60 cesu8AsHex(os, c). *)
Definition charAsHex (c : Z) : text := lit "\x" ++ hex 2 c.

(** unicode.cpp:56-64 charAsHex(os, c1, c2, c3, c4). *)
Definition charAsHex4 (c1 c2 c3 c4 : Z) : text := charAsHex c1 ++ charAsHex c2 ++ charAsHex c3 ++ charAsHex c4.

(** unicode.cpp:78-89 charAsHex(os, string): StringAsHex, unicode.hpp:18-25. *)
Definition stringAsHex (chars : list Z) : text :=
  match chars with
  | [] => []
  | c :: r => hex 2 c ++ flat_map (fun x => lit " " ++ hex 2 x) r
  end.

(** unicode.cpp:91-102 validChar, cesu8string.cpp:19-30 validCESU8Char(os, c). *)
Definition validChar (c : Z) : text :=
  if c =? 92 then lit "\\"
  else if (c <? 0x20) || (c =? 0x7f) then lit "\x" ++ hex 2 c
  else [c].

(** unicode.cpp:104-115 validChar2. *)
Definition validChar2 (c : Z) : text :=
  if c =? 92 then lit "\\"
  else if (c <? 0x20) || (c =? 0x7f) then lit "\u" ++ hex 4 c
  else [c].

(** unicode.cpp:25-30 validString: StringPrintable, unicode.hpp:27-34. *)
Definition validString (str : list Z) : text := flat_map validChar str.

(** The loops [for (size_t i = 0; i < chars.size(); i++)] of the decodeXxx(os, chars) functions.  The body gives the
    text it prints and the index when it ends, [None] for break. *)
Fixpoint printLoop (step : list Z -> Z -> res (text * option Z)) (fuel : nat) (chars : list Z) (i : Z) : res text :=
  if i <? bsize chars then
    match fuel with
    | O => OutOfFuel
    | S fuel' =>
        do r <- step chars i;
        match snd r with
        | None => Ok (fst r)
        | Some i' => do t <- printLoop step fuel' chars (i' + 1); Ok (fst r ++ t)
        end
    end
  else Ok [].

(** [codepage(os, e)] with [e] an int converted to uint32_t, then the index moves on to [i']. *)
Definition code_at (e i' : Z) : res (text * option Z) := Ok (codepage (wrapU 32 e), Some i').

(** [charAsHex(os, chars[i])]. (utf8string.cpp:77-176, cesu8string.cpp:139-214, utf16string.cpp:93-121, 190-215.) *)
Definition hex_at (c i : Z) : res (text * option Z) := Ok (charAsHex c, Some i).

(** utf8string.cpp:77-176, the body of decodeUTF8(os, chars). *)
Definition printUTF8Step (chars : list Z) (i : Z) : res (text * option Z) :=
  do c <- idx chars i;
  if c <=? 0x7f then Ok (validChar c, Some i)
  else if i + 2 >? bsize chars then hex_at c i
  else if (0xc2 <=? c) && (c <=? 0xdf) then
    do b <- inb 0x80 chars (i + 1) 0xbf;
    if b then do c1 <- idx chars (i + 1); code_at (0x80 + (c - 0xc2) * (0xbf - 0x80 + 1) + (c1 - 0x80)) (i + 1)
    else hex_at c i
  else if i + 3 >? bsize chars then hex_at c i
  else if 0xe0 =? c then
    do b <- band (inb 0xa0 chars (i + 1) 0xbf) (inb 0x80 chars (i + 2) 0xbf);
    if b then do c1 <- idx chars (i + 1); do c2 <- idx chars (i + 2);
              code_at (0x0800 + (c - 0xe0) * (0xbf - 0xa0 + 1) * (0xbf - 0x80 + 1) +
                       (c1 - 0xa0) * (0xbf - 0x80 + 1) + (c2 - 0x80)) (i + 2)
    else hex_at c i
  else if (0xe1 <=? c) && (c <=? 0xec) then
    do b <- band (inb 0x80 chars (i + 1) 0xbf) (inb 0x80 chars (i + 2) 0xbf);
    if b then do c1 <- idx chars (i + 1); do c2 <- idx chars (i + 2);
              code_at (0x1000 + (c - 0xe1) * (0xbf - 0x80 + 1) * (0xbf - 0x80 + 1) +
                       (c1 - 0x80) * (0xbf - 0x80 + 1) + (c2 - 0x80)) (i + 2)
    else hex_at c i
  else if 0xed =? c then
    do b <- band (inb 0x80 chars (i + 1) 0x9f) (inb 0x80 chars (i + 2) 0xbf);
    if b then do c1 <- idx chars (i + 1); do c2 <- idx chars (i + 2);
              code_at (0xD000 + (c - 0xed) * (0x9f - 0x80 + 1) * (0xbf - 0x80 + 1) +
                       (c1 - 0x80) * (0xbf - 0x80 + 1) + (c2 - 0x80)) (i + 2)
    else hex_at c i
  else if (0xee <=? c) && (c <=? 0xef) then
    do b <- band (inb 0x80 chars (i + 1) 0xbf) (inb 0x80 chars (i + 2) 0xbf);
    if b then do c1 <- idx chars (i + 1); do c2 <- idx chars (i + 2);
              code_at (0xe000 + (c - 0xee) * (0xbf - 0x80 + 1) * (0xbf - 0x80 + 1) +
                       (c1 - 0x80) * (0xbf - 0x80 + 1) + (c2 - 0x80)) (i + 2)
    else hex_at c i
  else if i + 4 >? bsize chars then hex_at c i
  else if 0xf0 =? c then
    do b <- band (inb 0x90 chars (i + 1) 0xbf) (band (inb 0x80 chars (i + 2) 0xbf) (inb 0x80 chars (i + 3) 0xbf));
    if b then do c1 <- idx chars (i + 1); do c2 <- idx chars (i + 2); do c3 <- idx chars (i + 3);
              code_at (0x10000 + (c - 0xf0) * (0xbf - 0x90 + 1) * (0xbf - 0x80 + 1) * (0xbf - 0x80 + 1) +
                       (c1 - 0x90) * (0xbf - 0x80 + 1) * (0xbf - 0x80 + 1) +
                       (c2 - 0x80) * (0xbf - 0x80 + 1) + (c3 - 0x80)) (i + 3)
    else hex_at c i
  else if (0xf1 <=? c) && (c <=? 0xf3) then
    do b <- band (inb 0x80 chars (i + 1) 0xbf) (band (inb 0x80 chars (i + 2) 0xbf) (inb 0x80 chars (i + 3) 0xbf));
    if b then do c1 <- idx chars (i + 1); do c2 <- idx chars (i + 2); do c3 <- idx chars (i + 3);
              code_at (0x40000 + (c - 0xf1) * (0xbf - 0x80 + 1) * (0xbf - 0x80 + 1) * (0xbf - 0x80 + 1) +
                       (c1 - 0x80) * (0xbf - 0x80 + 1) * (0xbf - 0x80 + 1) +
                       (c2 - 0x80) * (0xbf - 0x80 + 1) + (c3 - 0x80)) (i + 3)
    else hex_at c i
  else if 0xf4 =? c then
    do b <- band (inb 0x80 chars (i + 1) 0x8f) (band (inb 0x80 chars (i + 2) 0xbf) (inb 0x80 chars (i + 3) 0xbf));
    if b then do c1 <- idx chars (i + 1); do c2 <- idx chars (i + 2); do c3 <- idx chars (i + 3);
              code_at (0x100000 + (c - 0xf4) * (0x8f - 0x80 + 1) * (0xbf - 0x80 + 1) * (0xbf - 0x80 + 1) +
                       (c1 - 0x80) * (0xbf - 0x80 + 1) * (0xbf - 0x80 + 1) +
                       (c2 - 0x80) * (0xbf - 0x80 + 1) + (c3 - 0x80)) (i + 3)
    else hex_at c i
  else hex_at c i.

(** utf8string.cpp:38-56, 74-179 decodeUTF8(os, chars); each round moves the index on. *)
Definition printUTF8 (chars : list Z) : res text := printLoop printUTF8Step (length chars) chars 0.

(** cesu8string.cpp:139-214, the body of decodeCESU8(os, chars). *)
Definition printCESU8Step (chars : list Z) (i : Z) : res (text * option Z) :=
  do c <- idx chars i;
  if c <=? 0x7f then Ok (validChar c, Some i)
  else if i + 2 >? bsize chars then hex_at c i
  else if (0xc2 <=? c) && (c <=? 0xdf) then
    do b <- inb 0x80 chars (i + 1) 0xbf;
    if b then do c1 <- idx chars (i + 1); code_at (0x80 + (c - 0xc2) * (0xbf - 0x80 + 1) + (c1 - 0x80)) (i + 1)
    else hex_at c i
  else if i + 3 >? bsize chars then hex_at c i
  else if 0xe0 =? c then
    do b <- band (inb 0xa0 chars (i + 1) 0xbf) (inb 0x80 chars (i + 2) 0xbf);
    if b then do c1 <- idx chars (i + 1); do c2 <- idx chars (i + 2);
              code_at (0x0800 + (c - 0xe0) * (0xbf - 0xa0 + 1) * (0xbf - 0x80 + 1) +
                       (c1 - 0xa0) * (0xbf - 0x80 + 1) + (c2 - 0x80)) (i + 2)
    else hex_at c i
  else if (0xe1 <=? c) && (c <=? 0xec) then
    do b <- band (inb 0x80 chars (i + 1) 0xbf) (inb 0x80 chars (i + 2) 0xbf);
    if b then do c1 <- idx chars (i + 1); do c2 <- idx chars (i + 2);
              code_at (0x1000 + (c - 0xe1) * (0xbf - 0x80 + 1) * (0xbf - 0x80 + 1) +
                       (c1 - 0x80) * (0xbf - 0x80 + 1) + (c2 - 0x80)) (i + 2)
    else hex_at c i
  else if 0xed =? c then
    do b <- band (inb 0x80 chars (i + 1) 0x9f) (inb 0x80 chars (i + 2) 0xbf);
    if b then do c1 <- idx chars (i + 1); do c2 <- idx chars (i + 2);
              code_at (0xD000 + (c - 0xed) * (0x9f - 0x80 + 1) * (0xbf - 0x80 + 1) +
                       (c1 - 0x80) * (0xbf - 0x80 + 1) + (c2 - 0x80)) (i + 2)
    else if i + 6 >? bsize chars then hex_at c i
    else do p <- surrogatePairAt chars i;
         if p then do c1 <- idx chars (i + 1); do c2 <- idx chars (i + 2);
                   do c3 <- idx chars (i + 3); do c4 <- idx chars (i + 4); do c5 <- idx chars (i + 5);
                   Ok (codepage (pairCode c c1 c2 c3 c4 c5), Some (i + 5))
         else hex_at c i
  else if (0xee <=? c) && (c <=? 0xef) then
    do b <- band (inb 0x80 chars (i + 1) 0xbf) (inb 0x80 chars (i + 2) 0xbf);
    if b then do c1 <- idx chars (i + 1); do c2 <- idx chars (i + 2);
              code_at (0xe000 + (c - 0xee) * (0xbf - 0x80 + 1) * (0xbf - 0x80 + 1) +
                       (c1 - 0x80) * (0xbf - 0x80 + 1) + (c2 - 0x80)) (i + 2)
    else hex_at c i
  else hex_at c i.

(** cesu8string.cpp:102-120, 136-217 decodeCESU8(os, chars). *)
Definition printCESU8 (chars : list Z) : res text := printLoop printCESU8Step (length chars) chars 0.

(** utf16string.cpp:93-121, the body of decodeUTF16BE(os, chars).  The first test prints and falls through. *)
Definition printUTF16BEStep (chars : list Z) (i : Z) : res (text * option Z) :=
  do c <- idx chars i;
  let t0 := if i + 2 >? bsize chars then charAsHex c else [] in
  do ascii <- band (Ok (c =? 0)) (do c1 <- idx chars (i + 1); Ok (c1 <=? 0x7f));
  if ascii then do c1 <- idx chars (i + 1); Ok (t0 ++ validChar2 c1, Some (i + 1))
  else if (c <=? 0xD7) || (0xE0 <=? c) then
    do c1 <- idx chars (i + 1); Ok (t0 ++ codepage (wrapU 32 (Z.shiftl c 8 + c1)), Some (i + 1))
  else if i + 4 >? bsize chars then
    do c1 <- idx chars (i + 1); do c2 <- idx chars (i + 2); do c3 <- idx chars (i + 3);
    Ok (t0 ++ charAsHex4 c c1 c2 c3, None)
  else
    do c1 <- idx chars (i + 1); do c2 <- idx chars (i + 2); do c3 <- idx chars (i + 3);
    Ok (t0 ++ codepage (unitsCode (unit16 c c1) (unit16 c2 c3)), Some (i + 3)).

(** utf16string.cpp:190-215, the body of decodeUTF16LE(os, chars). *)
Definition printUTF16LEStep (chars : list Z) (i : Z) : res (text * option Z) :=
  do c <- idx chars i;
  let t0 := if i + 2 >? bsize chars then charAsHex c else [] in
  do c1 <- idx chars (i + 1);
  if (c1 =? 0) && (c <=? 0x7f) then Ok (t0 ++ validChar2 c, Some (i + 1))
  else if (c1 <=? 0xD7) || (0xE0 <=? c1) then Ok (t0 ++ codepage (wrapU 32 (Z.shiftl c1 8 + c)), Some (i + 1))
  else if i + 4 >? bsize chars then
    do c2 <- idx chars (i + 2); do c3 <- idx chars (i + 3);
    Ok (t0 ++ charAsHex4 c c1 c2 c3, None)
  else
    do c3 <- idx chars (i + 3); do c2 <- idx chars (i + 2);
    Ok (t0 ++ codepage (unitsCode (unit16 c1 c) (unit16 c3 c2)), Some (i + 3)).

(** utf16string.cpp:40-58, 90-124 and 60-78, 187-218. *)
Definition printUTF16BE (chars : list Z) : res text := printLoop printUTF16BEStep (length chars) chars 0.
(** utf16string.cpp:60-78, 187-218 decodeUTF16LE(os, chars). *)
Definition printUTF16LE (chars : list Z) : res text := printLoop printUTF16LEStep (length chars) chars 0.

(** ** show *)

(** printing.cpp:26-27 and the like: the text in quotes, then the bytes in hexadecimal. *)
Definition quoted (t : text) (bytes : list Z) : text := lit """" ++ t ++ lit """ (" ++ stringAsHex bytes ++ lit ")".

(** printing.cpp:10-15 show(os, const char*, len), on the [len] bytes. *)
Definition show_chars (bytes : list Z) : text := quoted (validString bytes) bytes.

(** printing.cpp:17-22 show(os, const char* ), on the bytes before the terminating zero. *)
Definition show_cstr (bytes : list Z) : text := lit "(" ++ stringAsHex bytes ++ lit ")".

(** printing.cpp:24-28 show(os, string) and 30-34 show(os, UTF8String); 36-40; 42-46; 48-52. *)
Definition show_utf8 (bytes : list Z) : res text := do t <- printUTF8 bytes; Ok (quoted t bytes).
(** printing.cpp:36-40. *)
Definition show_utf16be (bytes : list Z) : res text := do t <- printUTF16BE bytes; Ok (quoted t bytes).
(** printing.cpp:42-46. *)
Definition show_utf16le (bytes : list Z) : res text := do t <- printUTF16LE bytes; Ok (quoted t bytes).
(** printing.cpp:48-52. *)
Definition show_cesu8 (bytes : list Z) : res text := do t <- printCESU8 bytes; Ok (quoted t bytes).

(** printing.cpp:54-58. *)
Definition show_bool (b : bool) : text := if b then lit "true" else lit "false".

(** Texts separated by ", " (printing.hpp:139-143, 190-194, 205-209, 218-227, 237-246). *)
Definition commas (ts : list text) : text :=
  match ts with
  | [] => []
  | t :: r => t ++ flat_map (fun x => lit ", " ++ x) r
  end.

(** printing.hpp:165-170 pair; 172-182 tuple (of at least one component); 184-212 vector and list; 214-250 set and map;
    252-270 shared_ptr and Nullable. *)
Definition show_pair (a b : text) : text := lit "( " ++ a ++ lit ", " ++ b ++ lit " )".
(** printing.hpp:172-182. *)
Definition show_tuple (ts : list text) : text := lit "{ " ++ commas ts ++ lit " }".
(** printing.hpp:184-212. *)
Definition show_seq (ts : list text) : text := lit "[ " ++ commas ts ++ lit " ]".
(** printing.hpp:214-250. *)
Definition show_braced (ts : list text) : text := lit "{ " ++ commas ts ++ lit " }".
(** printing.hpp:258, 268: a null pointer or empty Nullable. *)
Definition show_null : text := lit "(null)".

(** The printable types: TInt stands for char, int8_t .. uint64_t (printing.cpp:60-112: all print as a decimal number);
    TStr for string and UTF8String; TSeq for vector and list; TSetInt for set<T> with T an integer type wider than
    char, whose elements printing.hpp:214-231 writes with [os <<]; TPtr for shared_ptr and Nullable.  Floating-point
    printing is not modelled. *)
Inductive shty :=
| TBool | TInt | TStr | TCesu | TSetInt
| TPair (a b : shty)
| TTuple (a : shty) (r : shtys)
| TSeq (a : shty)
| TMap (k v : shty)
| TPtr (a : shty)
with shtys := TNil | TCons (a : shty) (r : shtys).

(** The values of a type; a set or map is the list of its elements in iteration order.
    (Of the overloads of printing.cpp:10-124 and printing.hpp:165-250.) *)
Fixpoint sem (t : shty) : Type :=
  match t with
  | TBool => bool
  | TInt => Z
  | TStr | TCesu => list Z
  | TSetInt => list Z
  | TPair a b => (sem a * sem b)%type
  | TTuple a r => (sem a * sems r)%type
  | TSeq a => list (sem a)
  | TMap k v => list (sem k * sem v)
  | TPtr a => option (sem a)
  end
with sems (r : shtys) : Type :=
  match r with TNil => unit | TCons a r => (sem a * sems r)%type end.

(** printing.hpp show: the overload chosen by the type. *)
Fixpoint show (t : shty) : sem t -> res text :=
  match t return sem t -> res text with
  | TBool => fun b => Ok (show_bool b)
  | TInt => fun n => Ok (dec n)
  | TStr => show_utf8
  | TCesu => show_cesu8
  | TSetInt => fun l => Ok (show_braced (map dec l))
  | TPair a b => fun p => do x <- show a (fst p); do y <- show b (snd p); Ok (show_pair x y)
  | TTuple a r => fun p => do x <- show a (fst p); do ys <- shows r (snd p); Ok (show_tuple (x :: ys))
  | TSeq a => fun l => do ts <- mapM (show a) l; Ok (show_seq ts)
  | TMap k v => fun l =>
      do ts <- mapM (fun p => do x <- show k (fst p); do y <- show v (snd p); Ok (show_pair x y)) l; Ok (show_braced ts)
  | TPtr a => fun o => match o with Some x => show a x | None => Ok show_null end
  end
with shows (r : shtys) : sems r -> res (list text) :=
  match r return sems r -> res (list text) with
  | TNil => fun _ => Ok []
  | TCons a r => fun p => do x <- show a (fst p); do ys <- shows r (snd p); Ok (x :: ys)
  end.
