(** Vocabulary for contexts. *)
From Coq Require Import String List ZArith Bool.
From Verif Require Import Base ContextModel.
Import ListNotations.
Local Open Scope list_scope.

(** How often the pair is recorded directly in this scope. *)
Definition times_tagged (k v : string) (body : list op) : nat :=
  length (filter (fun o => match o with OTag _ _ k' v' => String.eqb k k' && String.eqb v v' | _ => false end) body).
Definition times_key (k : string) (body : list op) : nat :=
  length (filter (fun o => match o with OTag _ _ k' _ => String.eqb k k' | _ => false end) body).

(** The expectations that failed directly in this scope, with the text sent to each. *)
Definition failed_expectations (body : list op) : list failure :=
  flat_map (fun o => match o with
                     | OExpect false f msg => [{| f_file := f_file f; f_line := f_line f; f_cond := f_cond f;
                                                  f_str := String.append (f_str f) msg |}]
                     | _ => []
                     end) body.

(** The count recorded for a pair, 0 if there is none. *)
Definition count_of (c : ctx) (k v : string) : nat :=
  match sfind k (tags c) with
  | Some m => match sfind v m with Some t => t_count t | None => 0 end
  | None => 0
  end.

(** What the summary says about key [k]: the total and the listed counts. *)
Definition summary_of (c : ctx) (k : string) : option (nat * list (string * nat)) :=
  match find (fun x => String.eqb k (fst (fst x))) (printSummary c) with
  | Some (_, total, vs) => Some (total, vs)
  | None => None
  end.

(** [c] is the context of a scope just executed from [g], as the scope left it. *)
Definition scope_context (body : list op) (g : gst) (c : ctx) : Prop :=
  exists g', exec (OScope body) g = Ok g' /\ nth_error (heap g') (length (heap g)) = Some (c, cur g).
