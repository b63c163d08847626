(** Floating point values: shrinker/floating.hpp, shrinker/floating.cpp, generator/floating.cpp.

    float and double are IEEE 754 binary32 (prec 24, emax 128) and binary64 (prec 53, emax 1024) in round-to-nearest
    mode, as given by the standard library's SpecFloat; NaN payloads are dropped. *)
From Coq Require Import List ZArith Bool SpecFloat.
From Verif Require Import Base TreeModel BinSearchModel RandomModel.
Import ListNotations.
Local Open Scope Z_scope.

(** A floating point type. (The T of shrinker/floating.hpp:29.) *)
Record ftype := { prec : Z; emax : Z }.
(** float: generator/floating.cpp:11-17. *)
Definition binary32 : ftype := {| prec := 24; emax := 128 |}.
(** double: generator/floating.cpp:19-25. *)
Definition binary64 : ftype := {| prec := 53; emax := 1024 |}.

(** The conversion of +0.5f or -0.5f (shrinker/floating.hpp:70,72) to the type. *)
Definition half (ty : ftype) (neg : bool) : spec_float := S754_finite neg (shift_pos (Z.to_pos (prec ty - 1)) 1) (- prec ty).
(** numeric_limits::max() and lowest() (shrinker/floating.hpp:41,44). *)
Definition largest (ty : ftype) (neg : bool) : spec_float := if neg then SFopp (SFmax_float (prec ty) (emax ty)) else SFmax_float (prec ty) (emax ty).

(** A Shrinkable whose shrinks may be undefined behaviour to ask for. (shrinker/floating.hpp:29-88.) *)
Inductive ftree := FNode (v : spec_float) (s : list ftree) | FUndef (v : spec_float).
(** Its value. (Shrinkable.cpp:59.) *)
Definition fvalue (t : ftree) : spec_float := match t with FNode v _ => v | FUndef v => v end.
(** A Shrinkable with nothing undefined. (shrinker/floating.hpp:29-88.) *)
Fixpoint defined (t : tree spec_float) : ftree := match t with Node v s => FNode v (map defined s) end.

(** Shrinkable.cpp:289-307, andThen, as TreeModel.andThen, for a function that may be undefined behaviour; it is called only when
    the shrinks of the node are asked for (300). *)
Fixpoint andThenU (thn : tree spec_float -> res (list (tree spec_float))) (t : tree spec_float) : ftree :=
  match t with
  | Node a ts => match ts with
                 | [] => match thn (Node a ts) with Ok s => FNode a (map defined s) | _ => FUndef a end
                 | _ :: _ => FNode a (map (andThenU thn) ts)
                 end
  end.

(** static_cast<int>(value) (shrinker/floating.hpp:79): towards zero; undefined unless the result is an int. *)
Definition toInt (v : spec_float) : res Z :=
  match v with
  | S754_zero _ => Ok 0
  | S754_finite s m e =>
      let t := if 0 <=? e then Zpos m * 2 ^ e else Zpos m / 2 ^ (- e) in
      let z := if s then - t else t in
      if (- 2 ^ 31 <=? z) && (z <=? 2 ^ 31 - 1) then Ok z else UB
  | _ => UB
  end.

(** shrinker/floating.hpp:63-74, the function of the first andThen. *)
Definition fractionShrinks (ty : ftype) (t : tree spec_float) : list (tree spec_float) :=
  let value := root t in
  let exp := snd (SFfrexp (prec ty) (emax ty) value) in
  if SFeqb value (S754_zero false) then []
  else if SFltb (S754_zero false) value then [make_shrinkable (SFldexp (prec ty) (emax ty) (half ty false) exp)]
  else [make_shrinkable (SFldexp (prec ty) (emax ty) (half ty true) exp)].

(** shrinker/floating.hpp:77-84, the function of the second: abs(int) of the least int is undefined (80); for the comparison
    the int is converted to the type.  abs(value) is taken to be the floating point absolute value. *)
Definition integerfy (ty : ftype) (t : tree spec_float) : res (list (tree spec_float)) :=
  let value := root t in
  do i <- toInt value;
  if i =? 0 then Ok []
  else if i =? - 2 ^ 31 then UB
  else if SFltb (binary_normalize (prec ty) (emax ty) (Z.abs i) 0 false) (SFabs value)
       then Ok [make_shrinkable (binary_normalize (prec ty) (emax ty) i 0 false)]
       else Ok [].

(** shrinker/floating.hpp:29-88, shrinkFloat. *)
Definition shrinkFloat (ty : ftype) (value : spec_float) : res (list ftree) :=
  match value with
  | S754_zero _ => Ok []
  | S754_nan => Ok [FNode (S754_zero false) []]
  | _ =>
      let '(fraction, exp) := SFfrexp (prec ty) (emax ty) (match value with S754_infinity neg => largest ty neg | _ => value end) in
      do expShrinkable <- binarySearch exp;
      let f1 := map_tree (fun e => SFldexp (prec ty) (emax ty) fraction e) expShrinkable in
      let f2 := with_ f1 ([make_shrinkable (S754_zero false)] ++ shrinks f1) in
      let f3 := andThen (fractionShrinks ty) f2 in
      Ok (match andThenU (integerfy ty) f3 with FNode _ s => s | FUndef _ => [] end)
  end.

(** generator/floating.cpp:13-14,21-22, the reinterpret_cast of the bits drawn: sign, biased exponent and fraction; mbits is the
    number of stored fraction bits, bias the exponent bias. *)
Definition ofBits (ty : ftype) (raw : Z) : spec_float :=
  let mbits := prec ty - 1 in
  let mant := raw mod 2 ^ mbits in
  let be := (raw / 2 ^ mbits) mod (2 * emax ty) in
  let neg := Z.odd (raw / 2 ^ mbits / (2 * emax ty)) in
  if be =? 2 * emax ty - 1 then (if mant =? 0 then S754_infinity neg else S754_nan)
  else if be =? 0 then match mant with Zpos m => S754_finite neg m (emin (prec ty) (emax ty)) | _ => S754_zero neg end
  else match mant + 2 ^ mbits with Zpos m => S754_finite neg m (emin (prec ty) (emax ty) + be - 1) | _ => S754_nan end.

(** generator/floating.cpp:11-17,19-25, Arbi<float> and Arbi<double>: getRandomUInt32 and getRandomUInt64 without arguments (Random.hpp:20,22) draw all bits. *)
Definition genFloat {E} (ty : ftype) : G E (spec_float * res (list ftree)) :=
  gbind (draw 0 (2 ^ (prec ty + Z.log2 (emax ty) + 1) - 1)) (fun raw => let value := ofBits ty raw in gret (value, shrinkFloat ty value)).
