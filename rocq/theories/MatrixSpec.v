(** Cartesian products, and a property run on each of them. *)
From Coq Require Import List ZArith.
From Verif Require Import Base RandomModel RunnerModel.
Import ListNotations.

(** All combinations, the last component varying fastest. *)
Fixpoint product {V} (lists : list (list V)) : list (list V) :=
  match lists with
  | [] => [[]]
  | l :: ls => flat_map (fun x => map (cons x) (product ls)) l
  end.

(** [example] on each of the argument tuples, results ignored. *)
Fixpoint each {E V W} (P : property E V W) (l : list (list V)) (s : rs E V W) : res (rs E V W) :=
  match l with
  | [] => Ok s
  | a :: l' => do '(_, s') <- example P a s; each P l' s'
  end.

(** A list whose indices fit a signed 32-bit integer, and which is not empty. *)
Definition usable {V} (l : list V) : Prop := (1 <= Z.of_nat (length l) <= 2 ^ 31)%Z.
