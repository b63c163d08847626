(** Vocabulary for how likely the values of dependent generators are.  Computing the shrinks of such a value draws random numbers, and the
    generators themselves do so, so a plan (ChanceSpec) has to say what the shrinks draw as well. *)
From Coq Require Import List ZArith QArith.
From Verif Require Import Base RandomModel EffModel RunnerModel ChanceSpec.
Import ListNotations.

(** A shrinkable, with plans for computing its shrinks. *)
Inductive ptree (A : Type) := PNode (a : A) (s : plan (pstream A))
with pstream (A : Type) := PNil | PCons (h : ptree A) (tl : plan (pstream A)).
Arguments PNode {A} _ _.
Arguments PNil {A}.
Arguments PCons {A} _ _.
Definition proot {A} (p : ptree A) : A := match p with PNode a _ => a end.

(** The computation goes as planned with every state of the engine; results are related by [R]. *)
Definition runs {E X Y} (R : X -> Y -> Prop) (g : G E X) (p : plan Y) : Prop := forall r,
  match g r with
  | Ok (x, r') => exists y, play p r = Ok (y, r') /\ R x y
  | UB => play p r = UB
  | Throw e => play p r = Throw e
  | OutOfFuel => play p r = OutOfFuel
  end.
(** A shrinkable whose values and shrinks are as planned. *)
Fixpoint acts {E A B} (R : A -> B -> Prop) (t : etree E A) (p : ptree B) {struct t} : Prop :=
  match t, p with ENode a s, PNode b q => R a b /\ runs (acts_s R) s q end
with acts_s {E A B} (R : A -> B -> Prop) (s : estream E A) (p : pstream B) {struct s} : Prop :=
  match s, p with
  | ENil, PNil => True
  | ECons h tl, PCons h' tl' => acts R h h' /\ runs (acts_s R) tl tl'
  | _, _ => False
  end.

(** The plan ends normally, whatever is drawn, with a result satisfying [P]. *)
Definition ends {A} (P : A -> Prop) : plan A -> Prop :=
  fix go (p : plan A) : Prop :=
    match p with
    | Ends (Ok a) => P a
    | Ends _ => False
    | Draws lo hi k => (lo <= hi)%Z /\ forall z, (lo <= z <= hi)%Z -> go (k z)
    end.
(** Computing shrinks always ends normally, and all values satisfy [V]. *)
Fixpoint calm {A} (V : A -> Prop) (p : ptree A) : Prop := match p with PNode a q => V a /\ ends (calm_s V) q end
with calm_s {A} (V : A -> Prop) (s : pstream A) : Prop := match s with PNil => True | PCons h q => calm V h /\ ends (calm_s V) q end.

(** The generator does what the plan says, with every engine, never fails, and gives (and shrinks to) values satisfying [V]. *)
Definition obeys {A} (V : A -> Prop) (g : forall E, egen E A) (p : plan (ptree A)) : Prop := (forall E, runs (acts eq) (g E) p) /\ ends (calm V) p.
(** The mean of [f] over the generated values. *)
Definition expect {A} (p : plan (ptree A)) (f : A -> Q) : Q := mean p (fun x => match x with Ok t => f (proot t) | _ => 0 end).

(** The mean of [f] over the values reached from [a] by [n] steps, and over the lists of all values on the way. *)
Fixpoint walk {A} (p : A -> plan (ptree A)) (n : nat) (f : A -> Q) (a : A) : Q :=
  match n with O => f a | S n' => expect (p a) (walk p n' f) end.
Fixpoint trail {A} (p : A -> plan (ptree A)) (n : nat) (f : list A -> Q) (a : A) : Q :=
  match n with O => f [a] | S n' => expect (p a) (trail p n' (fun l => f (a :: l))) end.
(** The mean of [f] over lists of [n] values, [m] giving the mean over each. *)
Fixpoint many {A} (m : (A -> Q) -> Q) (n : nat) (f : list A -> Q) : Q :=
  match n with O => f [] | S n' => m (fun a => many m n' (fun l => f (a :: l))) end.
(** Lists of between [mn] and [mx] values satisfying [V]. *)
Definition fits_size {A} (mn mx : Z) (V : A -> Prop) (l : list A) : Prop := (mn <= Z.of_nat (length l) <= mx)%Z /\ Forall V l.

(** The generator as an argument of forAll. *)
Definition argument {E A} (g : egen E A) : xgen E A := gbind g (fun t => gret (inl t)).
