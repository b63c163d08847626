(** Model of property contexts: failed expectations and tags (proptest/PropertyContext.hpp, PropertyContext.cpp,
    Property.cpp).  Addresses of contexts are indices into the list of all contexts ever created; the static
    pointer PropertyBase::context is such an index or null. *)
From Coq Require Import String List ZArith Bool.
From Verif Require Import Base ListModel.
Import ListNotations.
Local Open Scope list_scope.

(** PropertyContext.hpp:8-15 Tag. *)
Record tagrec := { t_file : string; t_line : Z; t_value : string; t_count : nat }.

(** PropertyContext.hpp:17-27 Failure; [f_str] is the text accumulated in the stringstream. *)
Record failure := { f_file : string; f_line : Z; f_cond : string; f_str : string }.

(** std::map with string keys, as the list of its entries in key order. (PropertyContext.hpp:51.) *)
Definition smap (A : Type) : Type := list (string * A).

(** std::map::find. (PropertyContext.cpp:29, 33.) *)
Fixpoint sfind {A} (k : string) (m : smap A) : option A :=
  match m with
  | [] => None
  | (k', a) :: r => if String.eqb k k' then Some a else sfind k r
  end.

(** Assignment through the reference found. (PropertyContext.cpp:32, 36-37.) *)
Fixpoint supdate {A} (k : string) (a : A) (m : smap A) : smap A :=
  match m with
  | [] => []
  | (k', b) :: r => if String.eqb k k' then (k', a) :: r else (k', b) :: supdate k a r
  end.

(** PropertyContext.hpp:35-56 PropertyContext, without oldContext. *)
Record ctx := { tags : smap (smap tagrec); failures : list failure; lastStreamExists : bool }.

(** PropertyContext.cpp:17 constructor. *)
Definition newctx : ctx := {| tags := []; failures := []; lastStreamExists := false |}.

(** PropertyContext.cpp:27-46 tag. *)
Definition ctx_tag (file : string) (line : Z) (key value : string) (c : ctx) : ctx :=
  let fresh := {| t_file := file; t_line := line; t_value := value; t_count := 1 |} in
  {| tags := match sfind key (tags c) with
             | Some valueMap =>
                 match sfind value valueMap with
                 | Some t => supdate key (supdate value {| t_file := t_file t; t_line := t_line t; t_value := t_value t;
                                                           t_count := S (t_count t) |} valueMap) (tags c)
                 | None => supdate key (map_insert String.ltb (value, fresh) valueMap) (tags c)
                 end
             | None => map_insert String.ltb (key, map_insert String.ltb (value, fresh) []) (tags c)
             end;
     failures := failures c; lastStreamExists := lastStreamExists c |}.

(** PropertyContext.cpp:48-52 succeed. *)
Definition ctx_succeed (c : ctx) : ctx :=
  {| tags := tags c; failures := failures c; lastStreamExists := false |}.

(** PropertyContext.cpp:54-58 fail. *)
Definition ctx_fail (f : failure) (c : ctx) : ctx :=
  {| tags := tags c; failures := failures c ++ [f]; lastStreamExists := true |}.

(** PropertyContext.cpp:60-67 getLastStream, followed by [<< msg] on the stream returned.  The shared default
    stream is never read, so text written to it is dropped. *)
Definition ctx_append (msg : string) (c : ctx) : ctx :=
  if lastStreamExists c then
    {| tags := tags c;
       failures := match rev (failures c) with
                   | [] => []
                   | f :: r => rev r ++ [{| f_file := f_file f; f_line := f_line f; f_cond := f_cond f;
                                            f_str := String.append (f_str f) msg |}]
                   end;
       lastStreamExists := lastStreamExists c |}
  else c.

(** PropertyContext.cpp:69-89 flushFailures: the failures reported, and the context without them. *)
Definition ctx_flush (c : ctx) : list failure * ctx :=
  (failures c, {| tags := tags c; failures := []; lastStreamExists := lastStreamExists c |}).

(** PropertyContext.hpp:47 hasFailures. *)
Definition hasFailures (c : ctx) : bool := match failures c with [] => false | _ => true end.

(** PropertyContext.cpp:91-110 printSummary: per key, the total and the count of each value.  The percentage
    printed next to each count is in FloatPrintModel. *)
Definition printSummary (c : ctx) : list (string * nat * list (string * nat)) :=
  map (fun kv => (fst kv, fold_left (fun total v => total + t_count (snd v)) (snd kv) 0,
                  map (fun v => (fst v, t_count (snd v))) (snd kv))) (tags c).

(** All contexts created so far with their oldContext, and PropertyBase::context (Property.cpp:23). *)
Record gst := { heap : list (ctx * option nat); cur : option nat }.

(** PropertyContext.cpp:17-20 constructor. *)
Definition enter (g : gst) : nat * gst :=
  let id := length (heap g) in
  (id, {| heap := heap g ++ [(newctx, cur g)]; cur := Some id |}).

(** PropertyContext.cpp:22-25 destructor of context [id]. *)
Definition leave (id : nat) (g : gst) : res gst :=
  match nth_error (heap g) id with
  | Some (_, old) => Ok {| heap := heap g; cur := old |}
  | None => UB
  end.

(** The context that PropertyBase::context (Property.cpp:23) points to has changed. *)
Fixpoint heap_set (n : nat) (c : ctx) (h : list (ctx * option nat)) : list (ctx * option nat) :=
  match n, h with
  | _, [] => []
  | O, (_, old) :: r => (c, old) :: r
  | S n', x :: r => x :: heap_set n' c r
  end.

(** Property.cpp:32-67 tag, succeed, fail, getLastStream: on the current context, throwing when there is none. *)
Definition on_context (f : ctx -> ctx) (g : gst) : res gst :=
  match cur g with
  | None => Throw ERuntime
  | Some id => match nth_error (heap g) id with
               | Some (c, _) => Ok {| heap := heap_set id (f c) (heap g); cur := cur g |}
               | None => UB
               end
  end.

(** What a test does with contexts: PROP_TAG/PROP_STAT/PROP_CLASSIFY (PropertyBase.hpp:41-66), PROP_EXPECT... << msg
    (PropertyBase.hpp:8-39), and a scope with its own PropertyContext, as in example, runForAll, shrinkN. *)
Inductive op :=
| OTag (file : string) (line : Z) (key value : string)
| OExpect (ok : bool) (f : failure) (msg : string)
| OScope (body : list op).

(** The effect of one operation on the context it runs in (a nested scope has none). (PropertyContext.cpp:27-89.) *)
Definition apply_op (o : op) (c : ctx) : ctx :=
  match o with
  | OTag file line key value => ctx_tag file line key value c
  | OExpect ok f msg => ctx_append msg ((if ok then ctx_succeed else ctx_fail f) c)
  | OScope _ => c
  end.
(** PropertyContext.cpp:27-89, one operation after the other. *)
Definition apply_ops (l : list op) (c : ctx) : ctx := fold_left (fun c o => apply_op o c) l c.

(** The operations through the static pointer, with nested scopes. (Property.cpp:23-67, PropertyContext.cpp:17-25.) *)
Fixpoint exec (o : op) (g : gst) : res gst :=
  match o with
  | OTag file line key value => on_context (ctx_tag file line key value) g
  | OExpect ok f msg =>
      do g1 <- on_context (if ok then ctx_succeed else ctx_fail f) g;
      on_context (ctx_append msg) g1
  | OScope body =>
      let '(id, g1) := enter g in
      do g2 <- (fix go (l : list op) (g : gst) : res gst :=
                  match l with [] => Ok g | o :: r => do g' <- exec o g; go r g' end) body g1;
      leave id g2
  end.
