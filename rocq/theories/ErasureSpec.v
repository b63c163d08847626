(** Vocabulary for type erasure: what it means that every value of a shrinkable was stored as a given type. *)
From Coq Require Import List ZArith Bool.
From Verif Require Import Base TreeModel RandomModel EffModel ErasureModel.
Import ListNotations.

(** The shrinkable [t] with each of its values stored as a [T]. *)
Fixpoint stored {A} (T : cty) (t : tree A) : tree (obj A) :=
  match t with Node a ts => Node (Obj T a) (map (stored T) ts) end.

(** The components of a tuple, each stored as its own type. *)
Fixpoint storedAll {U} (ts : list cty) (l : list (tree U)) : list (tree (obj U)) :=
  match ts, l with
  | T :: ts', t :: r => stored T t :: storedAll ts' r
  | _, _ => []
  end.

(** A normal outcome changed by [f]; an abnormal one stays. *)
Definition result {A B} (f : A -> B) (r : res A) : res B :=
  match r with Ok a => Ok (f a) | UB => UB | Throw e => Throw e | OutOfFuel => OutOfFuel end.

(** Both outcomes are abnormal in the same way, or normal and related. *)
Definition outcomes {E A B} (R : A -> B -> Prop) (x : res (A * rst E)) (y : res (B * rst E)) : Prop :=
  match x, y with
  | Ok (a, q), Ok (b, q') => q = q' /\ R a b
  | UB, UB => True
  | Throw e, Throw e' => e = e'
  | OutOfFuel, OutOfFuel => True
  | _, _ => False
  end.

(** Two lazy shrinkables that behave alike, with related values: computing shrinks (or a tail) has the same effect in every
    state and gives streams alike, or the same abnormal outcome. *)
Fixpoint alike {E A B} (R : A -> B -> Prop) (t : etree E A) (t' : etree E B) {struct t} : Prop :=
  match t, t' with
  | ENode a shr, ENode b shr' =>
      R a b /\ forall r, match shr r, shr' r with
                         | Ok (s, q), Ok (s', q') => q = q' /\ alike_s R s s'
                         | UB, UB => True
                         | Throw e, Throw e' => e = e'
                         | OutOfFuel, OutOfFuel => True
                         | _, _ => False
                         end
  end
with alike_s {E A B} (R : A -> B -> Prop) (s : estream E A) (s' : estream E B) {struct s} : Prop :=
  match s, s' with
  | ENil, ENil => True
  | ECons h tl, ECons h' tl' =>
      alike R h h' /\ forall r, match tl r, tl' r with
                                | Ok (s, q), Ok (s', q') => q = q' /\ alike_s R s s'
                                | UB, UB => True
                                | Throw e, Throw e' => e = e'
                                | OutOfFuel, OutOfFuel => True
                                | _, _ => False
                                end
  | _, _ => False
  end.

(** The value [a], stored as a [T]. *)
Definition storedAs {A} (T : cty) (a : A) (o : obj A) : Prop := o = Obj T a.

(** Two generators alike: from every state the same effect, and shrinkables alike or the same abnormal outcome. *)
Definition gens {E A B} (R : A -> B -> Prop) (g : egen E A) (g' : egen E B) : Prop :=
  forall r, outcomes (alike R) (g r) (g' r).

(** [g'] is a generator that stores as a [T] what [g] generates. *)
Definition gensAs {E A} (T : cty) (g : egen E A) (g' : egen E (obj A)) : Prop := gens (storedAs T) g g'.

(** The erased generator of a typed one exists: store every value. *)
Definition storing {E A} (T : cty) (g : egen E A) : egen E (obj A) :=
  fun r => match g r with
           | Ok (t, q) => Ok (emap (Obj T) t, q)
           | UB => UB | Throw e => Throw e | OutOfFuel => OutOfFuel
           end.

(** The results of a generator changed by [f]. *)
Definition results {E A B} (f : A -> B) (g : G E A) : G E B := fun r => result (fun p => (f (fst p), snd p)) (g r).
