(** Model of the shrinker of encoded strings (proptest/shrinker/stringlike.hpp) and of the generators of code
    points and of encoded strings (proptest/generator/unicode.cpp, utf8string.cpp, cesu8string.cpp,
    utf16string.cpp).  The calls of vector::reserve, which have no effect on the contents, and the message
    printed before an exception is thrown are left out. *)
From Coq Require Import List ZArith Bool Floats.SpecFloat.
From Verif Require Import Base TreeModel BinSearchModel ListModel StringModel RandomModel ContainerModel
  IntegralModel GenModel Utf8Model Cesu8Model Utf16Model.
Import ListNotations.
Local Open Scope Z_scope.

(** int subtraction: undefined behaviour outside the range of int. (generator/unicode.cpp:10-14.) *)
Definition sub32 (a b : Z) : res Z :=
  if (- 2 ^ 31 <=? a - b) && (a - b <=? 2 ^ 31 - 1) then Ok (a - b) else UB.

(** stringlike.hpp:11-16: the string of the first [_size + minSize] characters. *)
Definition rearOf (str : list Z) (minSize : Z) (positions : list Z) (_size : Z) : res (list Z) :=
  match positions with
  | [] => Ok []
  | _ => do p <- idx positions (wrapU 64 (wrapU 64 _size + minSize)); substr str 0 (wrapU 64 p)
  end.

(** stringlike.hpp:25-31: the string without its first [minSize + value] characters. *)
Definition frontOf (str : list Z) (minSize maxSizeCopy : Z) (positions : list Z) (value : Z) : res (list Z) :=
  match positions with
  | [] => Ok []
  | _ => do p <- idx positions (wrapU 64 (minSize + value));
         do q <- idx positions maxSizeCopy;
         do d <- sub32 q p;
         substr str (wrapU 64 p) (wrapU 64 d)
  end.

(** stringlike.hpp:18-33: the continuation that shrinks the front.  [charsize] is the member of StringLike. *)
Definition shrinkStringLikeFront (charsize : list Z -> res Z) (minSize : Z) (positions : list Z)
           (shr : tree (list Z)) : res (list (tree (list Z))) :=
  do maxSizeCopy <- charsize (root shr);
  if maxSizeCopy =? minSize then Ok []
  else do r <- binarySearchU (wrapU 64 (maxSizeCopy - minSize));
       do t <- mapTreeM (frontOf (root shr) minSize maxSizeCopy positions) r;
       Ok (shrinks t).

(** stringlike.hpp:7-34 shrinkStringLike; the size_t argument of binarySearchShrinkable becomes an int64_t. *)
Definition shrinkStringLike (charsize : list Z -> res Z) (str : list Z) (minSize size : Z) (positions : list Z)
  : res (tree (list Z)) :=
  do r <- binarySearch (wrapS 64 (wrapU 64 (size - minSize)));
  do rear <- mapTreeM (rearOf str minSize positions) r;
  concatM (shrinkStringLikeFront charsize minSize positions) rear.

(** What the four generators differ in: encode*, isValid*, charsize, and the bytes appended after the positions
    have been recorded. (generator/utf8string.cpp:43-93, cesu8string.cpp:42-92, utf16string.cpp:38-78, 106-156.) *)
Record coding := {
  co_encode : Z -> list Z -> res (list Z);
  co_valid : list Z -> res (bool * Z);
  co_charsize : list Z -> res Z;
  co_end : list Z
}.
(** generator/utf8string.cpp:64, 68. *)
Definition utf8_coding : coding :=
  {| co_encode := encodeUTF8; co_valid := isValidUTF8; co_charsize := utf8_charsize; co_end := [] |}.
(** generator/cesu8string.cpp:61, 65. *)
Definition cesu8_coding : coding :=
  {| co_encode := encodeCESU8; co_valid := isValidCESU8; co_charsize := cesu8_charsize; co_end := [] |}.
(** generator/utf16string.cpp:57, 60-61, 63. *)
Definition utf16be_coding : coding :=
  {| co_encode := encodeUTF16BE; co_valid := isValidUTF16BE; co_charsize := utf16be_charsize; co_end := [0; 0] |}.
(** generator/utf16string.cpp:125, 128-129, 131. *)
Definition utf16le_coding : coding :=
  {| co_encode := encodeUTF16LE; co_valid := isValidUTF16LE; co_charsize := utf16le_charsize; co_end := [0; 0] |}.

(** generator/utf8string.cpp:56-66, cesu8string.cpp:55-63, utf16string.cpp:51-59, 119-127: the loop and the push
    of the last position.  A position is chars.size() converted to int. *)
Fixpoint encodeLoop {E} (co : coding) (elemGen : gen E Z) (n : nat) (chars positions : list Z)
  : G E (list Z * list Z) :=
  match n with
  | O => gret (chars, positions ++ [wrapS 32 (bsize chars)])
  | S n' =>
      gbind elemGen (fun codeShr =>
      gbind (gfail (co_encode co (root codeShr) chars)) (fun chars' =>
      encodeLoop co elemGen n' chars' (positions ++ [wrapS 32 (bsize chars)])))
  end.

(** generator/utf8string.cpp:43-93, cesu8string.cpp:42-92, utf16string.cpp:38-78, 106-156 operator(). *)
Definition arbi_encoded {E} (co : coding) (elemGen : gen E Z) (s : sizes) : gen E (list Z) :=
  gbind (containerSize s) (fun len =>
  gbind (encodeLoop co elemGen (Z.to_nat len) [] []) (fun '(chars, positions) =>
  let chars := chars ++ co_end co in
  gbind (gfail (co_valid co chars)) (fun v =>
  if fst v then gfail (shrinkStringLike (co_charsize co) chars (minSize s) len positions)
  else gfail (Throw ERuntime)))).

(** generator/unicode.cpp:10-14: the two ranges, weighted by their sizes.  The quotient is of a double and an int. *)
Definition unicodeRanges {E} : list (weighted E Z) :=
  let frontSize := 0xD7FF - 0x1 + 1 in
  let rearSize := 0x10FFFF - 0xE000 + 1 in
  let size := frontSize + rearSize in
  [ (no_discard (interval TU32 0x1 0xD7FF), d_div (d_of_Z frontSize) (d_of_Z size));
    (no_discard (interval TU32 0xE000 0x10FFFF), d_div (d_of_Z rearSize) (d_of_Z size)) ].

(** generator/unicode.cpp:8-17 UnicodeGen::operator().  The static generator has no state, so it makes no
    difference that it is made once. *)
Definition unicodeGen {E} (fuel : nat) : gen E Z :=
  fun r => do g <- oneOf unicodeRanges; g fuel r.
