(** Model of UTF-8 coding and validation (proptest/util/utf8string.cpp).  A vector<uint8_t> or a string is the
    list of its bytes, each a number from 0 to 255.  An index computed from a vector's size is exact: vectors are
    smaller than 2^63 bytes, so size_t arithmetic on indices does not wrap. *)
From Coq Require Import List ZArith Bool.
From Verif Require Import Base.
Import ListNotations.
Local Open Scope Z_scope.

(** vector::size. (utf8string.cpp:364-422.) *)
Definition bsize (l : list Z) : Z := Z.of_nat (length l).

(** [lo <= chars[i] && chars[i] <= hi]; reading outside the vector is undefined behaviour. (utf8string.cpp:366-420.) *)
Definition inb (lo : Z) (chars : list Z) (i hi : Z) : res bool :=
  do c <- idx chars i; Ok ((lo <=? c) && (c <=? hi)).

(** The C++ operator && on operands that read the vector: the right operand is only evaluated when needed. (utf8string.cpp:366-420.) *)
Definition band (a b : res bool) : res bool := do x <- a; if x then b else Ok false.

(** ++ on an int: undefined behaviour beyond the largest int. (utf8string.cpp:364-422.) *)
Definition inc32 (n : Z) : res Z := if n <? 2 ^ 31 - 1 then Ok (n + 1) else UB.

(** utf8string.cpp:366-420, the body of the validation loop at index [i]: [None] is [return false], [Some i'] is
    the index when the body ends (the loop header then adds one). *)
Definition isValidUTF8Step (chars : list Z) (i : Z) : res (option Z) :=
  do c <- idx chars i;
  if c <=? 0x7f then Ok (Some i)
  else if i + 2 >? bsize chars then Ok None
  else if (0xc2 <=? c) && (c <=? 0xdf) then
    do b <- inb 0x80 chars (i + 1) 0xbf; if b then Ok (Some (i + 1)) else Ok None
  else if i + 3 >? bsize chars then Ok None
  else if 0xe0 =? c then
    do b <- band (inb 0xa0 chars (i + 1) 0xbf) (inb 0x80 chars (i + 2) 0xbf); if b then Ok (Some (i + 2)) else Ok None
  else if (0xe1 <=? c) && (c <=? 0xec) then
    do b <- band (inb 0x80 chars (i + 1) 0xbf) (inb 0x80 chars (i + 2) 0xbf); if b then Ok (Some (i + 2)) else Ok None
  else if 0xed =? c then
    do b <- band (inb 0x80 chars (i + 1) 0x9f) (inb 0x80 chars (i + 2) 0xbf); if b then Ok (Some (i + 2)) else Ok None
  else if (0xee <=? c) && (c <=? 0xef) then
    do b <- band (inb 0x80 chars (i + 1) 0xbf) (inb 0x80 chars (i + 2) 0xbf); if b then Ok (Some (i + 2)) else Ok None
  else if i + 4 >? bsize chars then Ok None
  else if 0xf0 =? c then
    do b <- band (inb 0x90 chars (i + 1) 0xbf) (band (inb 0x80 chars (i + 2) 0xbf) (inb 0x80 chars (i + 3) 0xbf));
    if b then Ok (Some (i + 3)) else Ok None
  else if (0xf1 <=? c) && (c <=? 0xf3) then
    do b <- band (inb 0x80 chars (i + 1) 0xbf) (band (inb 0x80 chars (i + 2) 0xbf) (inb 0x80 chars (i + 3) 0xbf));
    if b then Ok (Some (i + 3)) else Ok None
  else if 0xf4 =? c then
    do b <- band (inb 0x80 chars (i + 1) 0x8f) (band (inb 0x80 chars (i + 2) 0xbf) (inb 0x80 chars (i + 3) 0xbf));
    if b then Ok (Some (i + 3)) else Ok None
  else Ok None.

(** The loops of isValidUTF8, isValidCESU8, isValidUTF16BE and isValidUTF16LE (utf8string.cpp:364-422,
    cesu8string.cpp:371-416, utf16string.cpp:315-330, 341-356), which differ in their bodies only:
    [for (i = 0; i < chars.size(); i++, numChars++)].  The result is the returned bool and the final numChars. *)
Fixpoint isValidLoop (step : list Z -> Z -> res (option Z)) (fuel : nat) (chars : list Z) (i numChars : Z)
  : res (bool * Z) :=
  if i <? bsize chars then
    match fuel with
    | O => OutOfFuel
    | S fuel' =>
        do r <- step chars i;
        match r with
        | None => Ok (false, numChars)
        | Some i' => do n' <- inc32 numChars; isValidLoop step fuel' chars (i' + 1) n'
        end
    end
  else Ok (true, numChars).

(** utf8string.cpp:362-423 isValidUTF8(chars, numChars).  Each round moves the index on, so as many rounds as there
    are bytes suffice. *)
Definition isValidUTF8 (chars : list Z) : res (bool * Z) := isValidLoop isValidUTF8Step (length chars) chars 0 0.

(** utf8string.cpp:343-354 UTF8CharSize, and 8-15 UTF8String::charsize, which throws on -1. *)
Definition UTF8CharSize (str : list Z) : res Z :=
  do r <- isValidUTF8 str; if fst r then Ok (snd r) else Ok (-1).
(** utf8string.cpp:8-15 UTF8String::charsize. *)
Definition utf8_charsize (str : list Z) : res Z :=
  do s <- UTF8CharSize str; if s <? 0 then Throw ERuntime else Ok (wrapU 64 s).

(** utf8string.cpp:181-261 decodeUTF8(chars): the code of the first character. *)
Definition decodeUTF8 (chars : list Z) : res Z :=
  if 0 <? bsize chars then
    do c0 <- idx chars 0;
    if c0 <=? 0x7f then Ok (wrapU 32 c0)
    else if 2 >? bsize chars then Throw ERuntime
    else if (0xc2 <=? c0) && (c0 <=? 0xdf) then
      do b <- inb 0x80 chars 1 0xbf;
      if b then do c1 <- idx chars 1; Ok (wrapU 32 (0x80 + (c0 - 0xc2) * (0xbf - 0x80 + 1) + (c1 - 0x80)))
      else Throw ERuntime
    else if 3 >? bsize chars then Throw ERuntime
    else if 0xe0 =? c0 then
      do b <- band (inb 0xa0 chars 1 0xbf) (inb 0x80 chars 2 0xbf);
      if b then do c1 <- idx chars 1; do c2 <- idx chars 2;
                Ok (wrapU 32 (0x0800 + (c0 - 0xe0) * (0xbf - 0xa0 + 1) * (0xbf - 0x80 + 1) +
                              (c1 - 0xa0) * (0xbf - 0x80 + 1) + (c2 - 0x80)))
      else Throw ERuntime
    else if (0xe1 <=? c0) && (c0 <=? 0xec) then
      do b <- band (inb 0x80 chars 1 0xbf) (inb 0x80 chars 2 0xbf);
      if b then do c1 <- idx chars 1; do c2 <- idx chars 2;
                Ok (wrapU 32 (0x1000 + (c0 - 0xe1) * (0xbf - 0x80 + 1) * (0xbf - 0x80 + 1) +
                              (c1 - 0x80) * (0xbf - 0x80 + 1) + (c2 - 0x80)))
      else Throw ERuntime
    else if 0xed =? c0 then
      do b <- band (inb 0x80 chars 1 0x9f) (inb 0x80 chars 2 0xbf);
      if b then do c1 <- idx chars 1; do c2 <- idx chars 2;
                Ok (wrapU 32 (0xD000 + (c0 - 0xed) * (0x9f - 0x80 + 1) * (0xbf - 0x80 + 1) +
                              (c1 - 0x80) * (0xbf - 0x80 + 1) + (c2 - 0x80)))
      else Throw ERuntime
    else if (0xee <=? c0) && (c0 <=? 0xef) then
      do b <- band (inb 0x80 chars 1 0xbf) (inb 0x80 chars 2 0xbf);
      if b then do c1 <- idx chars 1; do c2 <- idx chars 2;
                Ok (wrapU 32 (0xe000 + (c0 - 0xee) * (0xbf - 0x80 + 1) * (0xbf - 0x80 + 1) +
                              (c1 - 0x80) * (0xbf - 0x80 + 1) + (c2 - 0x80)))
      else Throw ERuntime
    else if 4 >? bsize chars then Throw ERuntime
    else if 0xf0 =? c0 then
      do b <- band (inb 0x90 chars 1 0xbf) (band (inb 0x80 chars 2 0xbf) (inb 0x80 chars 3 0xbf));
      if b then do c1 <- idx chars 1; do c2 <- idx chars 2; do c3 <- idx chars 3;
                Ok (wrapU 32 (0x10000 + (c0 - 0xf0) * (0xbf - 0x90 + 1) * (0xbf - 0x80 + 1) * (0xbf - 0x80 + 1) +
                              (c1 - 0x90) * (0xbf - 0x80 + 1) * (0xbf - 0x80 + 1) +
                              (c2 - 0x80) * (0xbf - 0x80 + 1) + (c3 - 0x80)))
      else Throw ERuntime
    else if (0xf1 <=? c0) && (c0 <=? 0xf3) then
      do b <- band (inb 0x80 chars 1 0xbf) (band (inb 0x80 chars 2 0xbf) (inb 0x80 chars 3 0xbf));
      if b then do c1 <- idx chars 1; do c2 <- idx chars 2; do c3 <- idx chars 3;
                Ok (wrapU 32 (0x40000 + (c0 - 0xf1) * (0xbf - 0x80 + 1) * (0xbf - 0x80 + 1) * (0xbf - 0x80 + 1) +
                              (c1 - 0x80) * (0xbf - 0x80 + 1) * (0xbf - 0x80 + 1) +
                              (c2 - 0x80) * (0xbf - 0x80 + 1) + (c3 - 0x80)))
      else Throw ERuntime
    else if 0xf4 =? c0 then
      do b <- band (inb 0x80 chars 1 0x8f) (band (inb 0x80 chars 2 0xbf) (inb 0x80 chars 3 0xbf));
      if b then do c1 <- idx chars 1; do c2 <- idx chars 2; do c3 <- idx chars 3;
                Ok (wrapU 32 (0x100000 + (c0 - 0xf4) * (0x8f - 0x80 + 1) * (0xbf - 0x80 + 1) * (0xbf - 0x80 + 1) +
                              (c1 - 0x80) * (0xbf - 0x80 + 1) * (0xbf - 0x80 + 1) +
                              (c2 - 0x80) * (0xbf - 0x80 + 1) + (c3 - 0x80)))
      else Throw ERuntime
    else Throw ERuntime
  else Throw ERuntime.

(** utf8string.cpp:263-341 encodeUTF8(code, chars): the vector afterwards.  [code -= k] and the operations on code
    are on uint32_t; the results are stored in uint8_t. *)
Definition encodeUTF8 (code : Z) (chars : list Z) : res (list Z) :=
  if code <=? 0x7f then Ok (chars ++ [wrapU 8 code])
  else if code <=? 0x07FF then
    let code := wrapU 32 (code - 0x80) in
    Ok (chars ++ [wrapU 8 (Z.shiftr code 6 + 0xc2); wrapU 8 (Z.land code 0x3f + 0x80)])
  else if code <=? 0x0FFF then
    let code := wrapU 32 (code - 0x800) in
    Ok (chars ++ [0xe0; wrapU 8 (Z.shiftr code 6 + 0xa0); wrapU 8 (Z.land code 0x3f + 0x80)])
  else if code <=? 0xCFFF then
    let code := wrapU 32 (code - 0x1000) in
    Ok (chars ++ [wrapU 8 (Z.shiftr code 12 + 0xe1); wrapU 8 (Z.land (Z.shiftr code 6) 0x3f + 0x80);
                  wrapU 8 (Z.land code 0x3f + 0x80)])
  else if code <=? 0xD7FF then
    let code := wrapU 32 (code - 0xD000) in
    Ok (chars ++ [0xed; wrapU 8 (Z.land (Z.shiftr code 6) 0x3f + 0x80); wrapU 8 (Z.land code 0x3f + 0x80)])
  else if code <=? 0xDFFF then Throw ERuntime
  else if code <=? 0xFFFF then
    let code := wrapU 32 (code - 0xE000) in
    Ok (chars ++ [wrapU 8 (Z.shiftr code 12 + 0xee); wrapU 8 (Z.land (Z.shiftr code 6) 0x3f + 0x80);
                  wrapU 8 (Z.land code 0x3f + 0x80)])
  else if code <=? 0x3FFFF then
    let code := wrapU 32 (code - 0x10000) in
    Ok (chars ++ [0xf0; wrapU 8 (Z.shiftr code 12 + 0x90); wrapU 8 (Z.land (Z.shiftr code 6) 0x3f + 0x80);
                  wrapU 8 (Z.land code 0x3f + 0x80)])
  else if code <=? 0xFFFFF then
    let code := wrapU 32 (code - 0x40000) in
    Ok (chars ++ [wrapU 8 (Z.shiftr code 18 + 0xf1); wrapU 8 (Z.land (Z.shiftr code 12) 0x3f + 0x80);
                  wrapU 8 (Z.land (Z.shiftr code 6) 0x3f + 0x80); wrapU 8 (Z.land code 0x3f + 0x80)])
  else if code <=? 0x10FFFF then
    let code := wrapU 32 (code - 0x100000) in
    Ok (chars ++ [0xf4; wrapU 8 (Z.shiftr code 12 + 0x80); wrapU 8 (Z.land (Z.shiftr code 6) 0x3f + 0x80);
                  wrapU 8 (Z.land code 0x3f + 0x80)])
  else Throw ERuntime.
