(** * Model of the timeout decorator, /repo/geotecha/inputoutput/timeout.py:77-125

    Two processes and a pipe.  The parent runs [inner]; the child runs run_func.  Every interleaving of their steps, with any passage
    of time between them, is a run.  From the standard library (multiprocessing) the model takes: put takes the queue's only slot at
    once (so full() is true) and leaves the pickling and writing to a feeder thread; the pipe holds at most [cap] bytes, and the
    feeder waits when it is full; the child's exit waits for the feeder; get waits for the whole message; join returns when the child is over or
    the time has passed; the child can be killed from outside at any point (only in runs with [crash] true).  When the object cannot be pickled the
    feeder drops it, and gives the slot back or not ([releases], it depends on the Python version).  Errors of start itself
    and of unpickling in the parent are not modelled; int(time) is the floor. *)
From Coq Require Import Reals List Bool Arith ZArith.
Local Open Scope R_scope.

Section Timeout.
Variables V E : Type.
(** what the decorated function does in the child; Bails: SystemExit, os._exit and the like, which "except Exception" :91 lets pass;
    a function that never ends is one whose end the run does not contain *)
Inductive behaviour := Returned (v : V) | Raised (e : E) | Bails.
(** what the caller of the decorated function sees *)
Inductive answer := Returns (v : V) | Raises (e : E) | TimedOut (n : Z) | AssertFailed.
Inductive parent := PCall | PStart | PReady | PJoin (deadline : option R) | PLook | PKill | PAssert | PGet | PDone (a : answer).
Inductive child := Unborn | Working | Put | Feeding (left : nat) | Gone | Dead.
Record st := mkSt { now : R; called : R; par : parent; chd : child; slot_taken : bool; pipe : nat }.

Variable what : behaviour.
Variable seconds : option R.
Variable force_kill : bool.
Variable cap : nat.
(** bytes of the pickled message; None: it cannot be pickled *)
Variable size : behaviour -> option nat.
Variable releases : bool.

Definition alive (c : child) : bool := match c with Working | Put | Feeding _ => true | _ => false end.
Definition posts (b : behaviour) : bool := match b with Bails => false | _ => true end.
(** :116-121 *)
Definition answer_of (b : behaviour) : answer := match b with Returned v => Returns v | Raised e => Raises e | Bails => AssertFailed end.
Definition init (t : R) : st := mkSt t t PCall Unborn false 0.

Inductive step (crash : bool) : st -> st -> Prop :=
| s_tick s d : 0 < d -> step crash s (mkSt (now s + d) (called s) (par s) (chd s) (slot_taken s) (pipe s))
(* the parent, inner :103-121 *)
| s_call s : par s = PCall -> step crash s (mkSt (now s) (now s) PStart (chd s) (slot_taken s) (pipe s))                                     (* :104 *)
| s_start s : par s = PStart -> step crash s (mkSt (now s) (called s) PReady Working (slot_taken s) (pipe s))                               (* :106 *)
| s_join s : par s = PReady -> step crash s (mkSt (now s) (called s) (PJoin (option_map (fun x => now s + x) seconds)) (chd s) (slot_taken s) (pipe s))   (* :107 *)
| s_join_over s dl : par s = PJoin dl -> alive (chd s) = false -> step crash s (mkSt (now s) (called s) PLook (chd s) (slot_taken s) (pipe s))
| s_join_late s dl : par s = PJoin (Some dl) -> dl <= now s -> step crash s (mkSt (now s) (called s) PLook (chd s) (slot_taken s) (pipe s))
| s_alive s : par s = PLook -> alive (chd s) = true -> step crash s (mkSt (now s) (called s) PKill (chd s) (slot_taken s) (pipe s))          (* :108 *)
| s_over s : par s = PLook -> alive (chd s) = false -> step crash s (mkSt (now s) (called s) PAssert (chd s) (slot_taken s) (pipe s))
| s_kill s : par s = PKill -> step crash s (mkSt (now s) (called s) (PDone (TimedOut (Int_part (now s - called s)))) (if force_kill && alive (chd s) then Dead else chd s) (slot_taken s) (pipe s))   (* :109-112 *)
| s_assert s : par s = PAssert -> step crash s (mkSt (now s) (called s) (if slot_taken s then PGet else PDone AssertFailed) (chd s) (slot_taken s) (pipe s))   (* :113 *)
| s_get s n : par s = PGet -> size what = Some n -> pipe s = n -> step crash s (mkSt (now s) (called s) (PDone (answer_of what)) (chd s) false 0)                (* :114-119 *)
(* the child, run_func :87-92, and its queue's feeder *)
| s_put s : chd s = Working -> posts what = true -> step crash s (mkSt (now s) (called s) (par s) Put true (pipe s))                        (* :90, :92 *)
| s_bail s : chd s = Working -> posts what = false -> step crash s (mkSt (now s) (called s) (par s) Gone (slot_taken s) (pipe s))
| s_pickle s n : chd s = Put -> size what = Some n -> step crash s (mkSt (now s) (called s) (par s) (Feeding n) (slot_taken s) (pipe s))
| s_drop s : chd s = Put -> size what = None -> step crash s (mkSt (now s) (called s) (par s) (Feeding 0) (negb releases) (pipe s))
| s_feed s k m : chd s = Feeding k -> (1 <= m <= k)%nat -> (pipe s + m <= cap)%nat -> step crash s (mkSt (now s) (called s) (par s) (Feeding (k - m)) (slot_taken s) (pipe s + m))
| s_exit s : chd s = Feeding 0 -> step crash s (mkSt (now s) (called s) (par s) Gone (slot_taken s) (pipe s))
(* from outside *)
| s_hit s : crash = true -> alive (chd s) = true -> step crash s (mkSt (now s) (called s) (par s) Dead (slot_taken s) (pipe s)).
Inductive steps (crash : bool) : st -> st -> Prop :=
| steps_none s : steps crash s s
| steps_more s s1 s2 : step crash s s1 -> steps crash s1 s2 -> steps crash s s2.
End Timeout.
