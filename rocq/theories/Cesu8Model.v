(** Model of CESU-8 coding and validation (proptest/util/cesu8string.cpp); conventions as in Utf8Model. *)
From Coq Require Import List ZArith Bool.
From Verif Require Import Base Utf8Model.
Import ListNotations.
Local Open Scope Z_scope.

(** cesu8string.cpp:400-402, 188-190, 259-261: the test for a surrogate pair at index [i]. *)
Definition surrogatePairAt (chars : list Z) (i : Z) : res bool :=
  band (inb 0xa0 chars (i + 1) 0xaf) (band (inb 0x80 chars (i + 2) 0xbf)
    (band (inb 0xed chars (i + 3) 0xed) (band (inb 0xb0 chars (i + 4) 0xbf) (inb 0x80 chars (i + 5) 0xbf)))).

(** cesu8string.cpp:373-414, the body of the validation loop; result as in isValidUTF8Step. *)
Definition isValidCESU8Step (chars : list Z) (i : Z) : res (option Z) :=
  do c <- idx chars i;
  if c <=? 0x7f then Ok (Some i)
  else if i + 2 >? bsize chars then Ok None
  else if (0xc2 <=? c) && (c <=? 0xdf) then
    do b <- inb 0x80 chars (i + 1) 0xbf; if b then Ok (Some (i + 1)) else Ok None
  else if i + 3 >? bsize chars then Ok None
  else if 0xe0 =? c then
    do b <- band (inb 0xa0 chars (i + 1) 0xbf) (inb 0x80 chars (i + 2) 0xbf); if b then Ok (Some (i + 2)) else Ok None
  else if (0xe1 <=? c) && (c <=? 0xec) then
    do b <- band (inb 0x80 chars (i + 1) 0xbf) (inb 0x80 chars (i + 2) 0xbf); if b then Ok (Some (i + 2)) else Ok None
  else if 0xed =? c then
    do b <- band (inb 0x80 chars (i + 1) 0x9f) (inb 0x80 chars (i + 2) 0xbf);
    if b then Ok (Some (i + 2))
    else if i + 6 >? bsize chars then Ok None
    else do b2 <- surrogatePairAt chars i; if b2 then Ok (Some (i + 5)) else Ok None
  else if (0xee <=? c) && (c <=? 0xef) then
    do b <- band (inb 0x80 chars (i + 1) 0xbf) (inb 0x80 chars (i + 2) 0xbf); if b then Ok (Some (i + 2)) else Ok None
  else Ok None.

(** cesu8string.cpp:369-417 isValidCESU8(chars, numChars). *)
Definition isValidCESU8 (chars : list Z) : res (bool * Z) := isValidLoop isValidCESU8Step (length chars) chars 0 0.

(** cesu8string.cpp:350-361 CESU8CharSize, and 8-15 CESU8String::charsize. *)
Definition CESU8CharSize (str : list Z) : res Z :=
  do r <- isValidCESU8 str; if fst r then Ok (snd r) else Ok (-1).
(** cesu8string.cpp:8-15 CESU8String::charsize. *)
Definition cesu8_charsize (str : list Z) : res Z :=
  do s <- CESU8CharSize str; if s <? 0 then Throw ERuntime else Ok (wrapU 64 s).

(** cesu8string.cpp:192-196, 263-267: the code of a surrogate pair whose six bytes are [c0]..[c5]. *)
Definition pairCode (c0 c1 c2 c3 c4 c5 : Z) : Z :=
  let high := wrapU 16 (0xD800 + (c0 - 0xed) * (0xaf - 0xa0 + 1) * (0xbf - 0x80 + 1) +
                        (c1 - 0xa0) * (0xbf - 0x80 + 1) + (c2 - 0x80)) in
  let low := wrapU 16 (0xDC00 + (c3 - 0xed) * (0xbf - 0xb0 + 1) * (0xbf - 0x80 + 1) +
                       (c4 - 0xb0) * (0xbf - 0x80 + 1) + (c5 - 0x80)) in
  wrapU 32 (0x10000 + Z.shiftl (Z.land high 0x03FF) 10 + Z.land low 0x03FF).

(** cesu8string.cpp:219-285 decodeCESU8(chars): the code of the first character. *)
Definition decodeCESU8 (chars : list Z) : res Z :=
  if 0 <? bsize chars then
    do c0 <- idx chars 0;
    if c0 <=? 0x7f then Ok (wrapU 32 c0)
    else if 2 >? bsize chars then Throw ERuntime
    else if (0xc2 <=? c0) && (c0 <=? 0xdf) then
      do b <- inb 0x80 chars 1 0xbf;
      if b then do c1 <- idx chars 1; Ok (wrapU 32 (0x80 + (c0 - 0xc2) * (0xbf - 0x80 + 1) + (c1 - 0x80)))
      else Throw ERuntime
    else if 3 >? bsize chars then Throw ERuntime
    else if 0xe0 =? c0 then
      do b <- band (inb 0xa0 chars 1 0xbf) (inb 0x80 chars 2 0xbf);
      if b then do c1 <- idx chars 1; do c2 <- idx chars 2;
                Ok (wrapU 32 (0x0800 + (c0 - 0xe0) * (0xbf - 0xa0 + 1) * (0xbf - 0x80 + 1) +
                              (c1 - 0xa0) * (0xbf - 0x80 + 1) + (c2 - 0x80)))
      else Throw ERuntime
    else if (0xe1 <=? c0) && (c0 <=? 0xec) then
      do b <- band (inb 0x80 chars 1 0xbf) (inb 0x80 chars 2 0xbf);
      if b then do c1 <- idx chars 1; do c2 <- idx chars 2;
                Ok (wrapU 32 (0x1000 + (c0 - 0xe1) * (0xbf - 0x80 + 1) * (0xbf - 0x80 + 1) +
                              (c1 - 0x80) * (0xbf - 0x80 + 1) + (c2 - 0x80)))
      else Throw ERuntime
    else if 0xed =? c0 then
      do b <- band (inb 0x80 chars 1 0x9f) (inb 0x80 chars 2 0xbf);
      if b then do c1 <- idx chars 1; do c2 <- idx chars 2;
                Ok (wrapU 32 (0xD000 + (c0 - 0xed) * (0x9f - 0x80 + 1) * (0xbf - 0x80 + 1) +
                              (c1 - 0x80) * (0xbf - 0x80 + 1) + (c2 - 0x80)))
      else if 6 >? bsize chars then Throw ERuntime
      else do b2 <- surrogatePairAt chars 0;
           if b2 then do c1 <- idx chars 1; do c2 <- idx chars 2; do c3 <- idx chars 3; do c4 <- idx chars 4;
                      do c5 <- idx chars 5; Ok (pairCode c0 c1 c2 c3 c4 c5)
           else Throw ERuntime
    else if (0xee <=? c0) && (c0 <=? 0xef) then
      do b <- band (inb 0x80 chars 1 0xbf) (inb 0x80 chars 2 0xbf);
      if b then do c1 <- idx chars 1; do c2 <- idx chars 2;
                Ok (wrapU 32 (0xe000 + (c0 - 0xee) * (0xbf - 0x80 + 1) * (0xbf - 0x80 + 1) +
                              (c1 - 0x80) * (0xbf - 0x80 + 1) + (c2 - 0x80)))
      else Throw ERuntime
    else Throw ERuntime
  else Throw ERuntime.

(** cesu8string.cpp:336-343: one round of the surrogate loop; [base] and [mark] are the two values chosen by
    [j == 0 ? ... : ...]. *)
Definition surrogateBytes (surrogate base mark : Z) : list Z :=
  let code := wrapU 32 (surrogate - base) in
  [0xed; wrapU 8 (Z.land (Z.shiftr code 6) 0x3f + mark); wrapU 8 (Z.land code 0x3f + 0x80)].

(** cesu8string.cpp:287-348 encodeCESU8(code, chars): the vector afterwards. *)
Definition encodeCESU8 (code : Z) (chars : list Z) : res (list Z) :=
  if code <=? 0x7f then Ok (chars ++ [wrapU 8 code])
  else if code <=? 0x07FF then
    let code := wrapU 32 (code - 0x80) in
    Ok (chars ++ [wrapU 8 (Z.shiftr code 6 + 0xc2); wrapU 8 (Z.land code 0x3f + 0x80)])
  else if code <=? 0x0FFF then
    let code := wrapU 32 (code - 0x800) in
    Ok (chars ++ [0xe0; wrapU 8 (Z.shiftr code 6 + 0xa0); wrapU 8 (Z.land code 0x3f + 0x80)])
  else if code <=? 0xCFFF then
    let code := wrapU 32 (code - 0x1000) in
    Ok (chars ++ [wrapU 8 (Z.shiftr code 12 + 0xe1); wrapU 8 (Z.land (Z.shiftr code 6) 0x3f + 0x80);
                  wrapU 8 (Z.land code 0x3f + 0x80)])
  else if code <=? 0xD7FF then
    let code := wrapU 32 (code - 0xD000) in
    Ok (chars ++ [0xed; wrapU 8 (Z.land (Z.shiftr code 6) 0x3f + 0x80); wrapU 8 (Z.land code 0x3f + 0x80)])
  else if code <=? 0xDFFF then Throw ERuntime
  else if code <=? 0xFFFF then
    let code := wrapU 32 (code - 0xE000) in
    Ok (chars ++ [wrapU 8 (Z.shiftr code 12 + 0xee); wrapU 8 (Z.land (Z.shiftr code 6) 0x3f + 0x80);
                  wrapU 8 (Z.land code 0x3f + 0x80)])
  else if code <=? 0x10FFFF then
    let code := wrapU 32 (code - 0x10000) in
    let s0 := wrapU 16 (0xD800 + Z.shiftr code 10) in
    let s1 := wrapU 16 (0xDC00 + Z.land code 0x3FF) in
    Ok (chars ++ surrogateBytes s0 0xd800 0xa0 ++ surrogateBytes s1 0xdc00 0xb0)
  else Throw ERuntime.
