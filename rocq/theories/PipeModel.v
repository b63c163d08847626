(** Results of a forked process: util/fork.hpp, util/fork.cpp.

    Bytes are numbers 0..255.  The pipe is the list of bytes written and not yet read.  Not modelled: what
    the child does to its copy of memory, what it prints, pointers inside RET (its bytes are copied as they
    are, so RET stands for a type whose bytes are its value), and a waitpid interrupted by a signal. *)
From Coq Require Import List ZArith Bool.
Import ListNotations.
Local Open Scope Z_scope.

(** A byte of memory; None: not initialised. (The members of fork.hpp:31-34 and the array of line 52.) *)
Definition cell := option Z.

(** What a read or write call does: all that is possible at once; at most k bytes (but at least one);
    interrupted before anything (returns -1). *)
Inductive io := Full | Part (k : Z) | Intr.

(** How many bytes of n such a call moves. (fork.cpp:21, 26.) *)
Definition moves (d : io) (n : Z) : Z := match d with Full => n | Part k => Z.min n (Z.max 1 k) | Intr => 0 end.

(** fork.cpp:19-22, Pipe::read on the read end: what arrives and what remains in the pipe.  None: blocks
    forever, for the pipe is empty and a write end is still open (the parent never closes its own:
    fork.hpp:96-137 close the pipe only in the child and in ~Pipe). *)
Definition sysRead (d : io) (n : Z) (pipe : list Z) : option (list Z * list Z) :=
  if n =? 0 then Some ([], pipe) else
  match d, pipe with
  | Intr, _ => Some ([], pipe)
  | _, [] => None
  | _, _ => let k := Z.to_nat (moves d (Z.min n (Z.of_nat (length pipe)))) in Some (firstn k pipe, skipn k pipe)
  end.

(** fork.cpp:24-27, Pipe::write on a pipe holding at most cap bytes, while nobody reads (the parent is in
    waitpid, fork.hpp:121): None if it blocks. *)
Definition sysWrite (cap : Z) (d : io) (data pipe : list Z) : option (list Z) :=
  let k := moves d (Z.of_nat (length data)) in
  if Z.of_nat (length pipe) + k <=? cap then Some (pipe ++ firstn (Z.to_nat k) data) else None.

(** The n bytes of an unsigned number, lowest first, and back (size_t on the little-endian 64-bit targets). *)
Fixpoint le (n : nat) (x : Z) : list Z := match n with O => [] | S m => x mod 256 :: le m (x / 256) end.
(** Back: the number that fork.hpp:48 reads. *)
Fixpoint unle (l : list Z) : Z := match l with [] => 0 | b :: r => b + 256 * unle r end.

(** fork.hpp:14-35, PipeResult: the bytes of ret if successful, else those of msg; size is their number
    (18-19), which is what both constructors store. *)
Record result := { success : bool; payload : list Z }.

(** fork.hpp:59-70, Pipe::write<RET>: success, size, payload in three calls, whose results are ignored. *)
Definition pipeWrite (cap : Z) (d : nat -> io) (r : result) (pipe : list Z) : option (list Z) :=
  match sysWrite cap (d 0%nat) [if success r then 1 else 0] pipe with None => None | Some p1 =>
  match sysWrite cap (d 1%nat) (le 8 (Z.of_nat (length (payload r)))) p1 with None => None | Some p2 =>
  sysWrite cap (d 2%nat) (payload r) p2
  end end.

(** Memory after a read: the bytes that arrived replace the first ones. (fork.hpp:47-53.) *)
Definition store {X} (got old : list X) : list X := got ++ skipn (length got) old.

(** What Pipe::read<RET> gives: the result read with the count returned and what remains in the pipe. (fork.hpp:44-58.) *)
Inductive rd := Got (ok : bool) (data : list cell) (count : Z) (rest : list Z) | Blocks | Undef.

(** fork.hpp:44-58, Pipe::read<RET> into a PipeResult made by the default constructor (17: success false, size 0,
    ret not initialised), rsize being sizeof(RET): three calls, whose results are ignored.  A byte other than
    0 and 1 in a bool is undefined behaviour (49).  The text is read into char buf[100] (52-53) and copied from there
    (54): with a size above 100 both go past its end. *)
Definition pipeRead (rsize : Z) (d : nat -> io) (pipe : list Z) : rd :=
  match sysRead (d 0%nat) 1 pipe with None => Blocks | Some (b, p1) =>
  match sysRead (d 1%nat) 8 p1 with None => Blocks | Some (s, p2) =>
  let flag := unle (store b [0]) in
  let size := unle (store s (repeat 0 8)) in
  if flag =? 1 then
    match sysRead (d 2%nat) rsize p2 with None => Blocks | Some (x, p3) =>
    Got true (store (map Some x) (repeat None (Z.to_nat rsize))) (1 + size) p3 end
  else if flag =? 0 then
    match sysRead (d 2%nat) size p2 with None => Blocks | Some (x, p3) =>
    if 100 <? size then Undef else
    Got false (firstn (Z.to_nat size) (store (map Some x) (repeat None 100))) (1 + size) p3 end
  else Undef
  end end.

(** What the function called in the child does: returns a value (its bytes), throws a std::exception with that
    what(), or does neither: it ends the process itself, never ends, is killed, or throws something else, which leaves
    safeCall in the child (110 does not catch it) for handlers further up.  In the last case: the status the process
    ends with at last, if it does. *)
Inductive child := Returns (bytes : list Z) | Throws (text : list Z) | Leaves (status : option Z).

(** The message of the runtime_error thrown: fork.cpp:11, fork.cpp:43, fork.hpp:128, fork.hpp:135. *)
Inductive message := NoPipe | NoFork | Ended (status : Z) | Thrown (text : list cell).
(** What the call of safeCall in the parent does. (fork.hpp:93-138.) *)
Inductive outcome := Returned (bytes : list cell) | Raised (m : message) | Hangs | Undefined.

(** WIFEXITED (sys/wait.h): did the process end by exit? (fork.hpp:126.) *)
Definition wifexited (status : Z) : bool := Z.land status 127 =? 0.

(** fork.hpp:102-117, the child: the pipe when it has ended, and its status (exit(0): 0; exit(-1): 255 * 256);
    None: it never ends.  fork.cpp:46-58. *)
Definition childRun (cap : Z) (w : nat -> io) (f : child) : option (list Z * Z) :=
  match f with
  | Returns bytes => match pipeWrite cap w {| success := true; payload := bytes |} [] with Some p => Some (p, 0) | None => None end
  | Throws text => match pipeWrite cap w {| success := false; payload := text |} [] with Some p => Some (p, 65280) | None => None end
  | Leaves (Some status) => Some ([], status)
  | Leaves None => None
  end.

(** fork.hpp:93-138, safeCall, in the parent: the pipe (fork.cpp:6-12), the process (fork.cpp:39-44), waitpid (121), then the
    result (126-136).  [r] and [w]: how the reads and writes go. *)
Definition safeCall (pipeOk forkOk : bool) (cap rsize : Z) (w r : nat -> io) (f : child) : outcome :=
  if negb pipeOk then Raised NoPipe else
  if negb forkOk then Raised NoFork else
  match childRun cap w f with
  | None => Hangs
  | Some (pipe, status) =>
      if wifexited status then
        match pipeRead rsize r pipe with
        | Blocks => Hangs
        | Undef => Undefined
        | Got true ret _ _ => Returned ret
        | Got false msg _ _ => Raised (Thrown msg)
        end
      else Raised (Ended status)
  end.
