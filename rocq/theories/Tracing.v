(** Model of source/tracing.cc and include/mini_opt/tracing.hpp (compiled with MINI_OPT_TRACING).

    The first part is the sequential behaviour of trace_collector and scoped_trace. The second part is a small-step
    semantics of threads sharing one collector, at the granularity at which the mutex and the deque are touched. *)
From Coq Require Import String List Bool Arith ZArith DecimalString.
Import ListNotations.
Local Open Scope string_scope.
Local Open Scope list_scope.

(** tracing.hpp:34-45 *)
Record trace_event := MkEvent {
  ev_name : string; ev_ts : Z; ev_pid : Z; ev_tid : Z; ev_dur_ns : Z }.

(** tracing.cc:100, [max_traces] *)
Definition max_traces : Z := 100000.

(** events.push_back(event), tracing.cc:99 *)
Definition push_back (events : list trace_event) (e : trace_event) : list trace_event := events ++ [e].
(** if (events.size() > max_traces) events.pop_front(), tracing.cc:101-103 *)
Definition trim (events : list trace_event) : list trace_event :=
  if (max_traces <? Z.of_nat (List.length events))%Z then tl events else events.
(** submit_event, tracing.cc:95-104 *)
Definition submit_event (events : list trace_event) (e : trace_event) : list trace_event :=
  trim (push_back events e).

(** fmt's decimal formatting of an integer *)
Definition dec (z : Z) : string := NilZero.string_of_int (Z.to_int z).

(** A double quote character *)
Definition dq : string := String (Ascii.ascii_of_nat 34) EmptyString.
Definition nl : string := String (Ascii.ascii_of_nat 10) EmptyString.
Definition quoted (s : string) : string := (dq ++ s ++ dq)%string.

(** fmt::formatter<trace_event>, tracing.cc:30-42. Integer division truncates. The name is copied without escaping. *)
Definition format_event (e : trace_event) : string :=
  ("{ " ++ quoted "name" ++ ": " ++ quoted (ev_name e) ++ ", " ++ quoted "cat" ++ ": " ++ quoted "" ++ ", "
  ++ quoted "ph" ++ ": " ++ quoted "X" ++ ", " ++ quoted "ts" ++ ": " ++ dec (ev_ts e) ++ ", "
  ++ quoted "pid" ++ ": " ++ dec (ev_pid e) ++ ", " ++ quoted "tid" ++ ": " ++ dec (ev_tid e) ++ ", "
  ++ quoted "dur" ++ ": " ++ dec (Z.quot (ev_dur_ns e) 1000) ++ " }")%string.

(** fmt::join *)
Fixpoint join (sep : string) (l : list string) : string :=
  match l with
  | [] => ""
  | [s] => s
  | s :: l' => (s ++ sep ++ join sep l')%string
  end.

(** get_trace_json, tracing.cc:82-89, 109-111 *)
Definition get_trace_json (events : list trace_event) : string :=
  (nl ++ "{" ++ nl ++ "  " ++ quoted "traceEvents" ++ ": [" ++ nl ++ "    "
  ++ join ("," ++ nl ++ "    ") (map format_event events)
  ++ nl ++ "  ]," ++ nl ++ "  " ++ quoted "displayTimeUnit" ++ ": " ++ quoted "ns" ++ nl ++ "}" ++ nl)%string.

(** ~scoped_trace, tracing.cc:118-132: the event submitted when the scope ends, if any. [start], [finish] are the two
    readings of the clock, in nanoseconds since its epoch; [uncaught] is std::uncaught_exceptions(). *)
Definition scope_event (name : string) (start finish : Z) (uncaught : nat) (pid tid : Z) : option trace_event :=
  if (0 <? uncaught)%nat then None
  else Some (MkEvent name (Z.quot start 1000) pid tid (finish - start)%Z).

(** ** Threads *)

(** What a thread does with the collector. *)
Inductive op : Type :=
| Submit (e : trace_event)
| Dump.

(** Where a thread is: between calls; in submit_event holding the lock before push_back (tracing.cc:98-99), before the
    size test (100-103), before the unlock at the end of the scope (104); or inside get_trace_json (109-111), which
    takes no lock. *)
Inductive pc : Type :=
| Idle | AtPush (e : trace_event) | AtTrim | AtUnlock | AtRead.

Record thread := MkThread { th_pc : pc; th_todo : list op }.

Record shared := MkShared {
  sh_owner : option nat;               (* holder of the mutex *)
  sh_events : list trace_event;
  sh_dumps : list string;              (* texts returned by get_trace_json so far *)
  sh_threads : nat -> thread }.

Definition set_thread (i : nat) (t : thread) (f : nat -> thread) : nat -> thread :=
  fun j => if (j =? i)%nat then t else f j.

(** One step of thread [i]. *)
Inductive step (i : nat) : shared -> shared -> Prop :=
| step_lock : forall s e l,
    sh_threads s i = MkThread Idle (Submit e :: l) -> sh_owner s = None ->
    step i s (MkShared (Some i) (sh_events s) (sh_dumps s) (set_thread i (MkThread (AtPush e) l) (sh_threads s)))
| step_push : forall s e l,
    sh_threads s i = MkThread (AtPush e) l ->
    step i s (MkShared (sh_owner s) (push_back (sh_events s) e) (sh_dumps s) (set_thread i (MkThread AtTrim l) (sh_threads s)))
| step_trim : forall s l,
    sh_threads s i = MkThread AtTrim l ->
    step i s (MkShared (sh_owner s) (trim (sh_events s)) (sh_dumps s) (set_thread i (MkThread AtUnlock l) (sh_threads s)))
| step_unlock : forall s l,
    sh_threads s i = MkThread AtUnlock l ->
    step i s (MkShared None (sh_events s) (sh_dumps s) (set_thread i (MkThread Idle l) (sh_threads s)))
| step_begin_read : forall s l,
    sh_threads s i = MkThread Idle (Dump :: l) ->
    step i s (MkShared (sh_owner s) (sh_events s) (sh_dumps s) (set_thread i (MkThread AtRead l) (sh_threads s)))
| step_end_read : forall s l,
    sh_threads s i = MkThread AtRead l ->
    step i s (MkShared (sh_owner s) (sh_events s) (sh_dumps s ++ [get_trace_json (sh_events s)])
                       (set_thread i (MkThread Idle l) (sh_threads s))).

Inductive reachable (prog : nat -> list op) : shared -> Prop :=
| reach_init : reachable prog (MkShared None [] [] (fun i => MkThread Idle (prog i)))
| reach_step : forall s s' i, reachable prog s -> step i s s' -> reachable prog s'.

(** A data race on the deque: one thread is about to write it while another is about to access it. (What the program
    does then is undefined; the steps above describe one possible continuation.) *)
Definition writing (p : pc) : Prop := match p with AtPush _ | AtTrim => True | _ => False end.
Definition accessing (p : pc) : Prop := match p with AtPush _ | AtTrim | AtRead => True | _ => False end.
Definition race (s : shared) : Prop :=
  exists i j, i <> j /\ writing (th_pc (sh_threads s i)) /\ accessing (th_pc (sh_threads s j)).
