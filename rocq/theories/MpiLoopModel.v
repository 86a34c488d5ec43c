(** Leader and worker loops of MpiPartition as a network of processes.
    Models src/simsopt/util/mpi.py: mobilize_leaders (163-174), mobilize_workers (176-182), stop_leaders
    (184-190), stop_workers (192-198), leaders_loop (200-225), worker_loop (227-251), apart (253-265),
    together (267-277).

    Simplifications: a broadcast is a FIFO channel per receiver (the root does not wait for the receivers, a
    receiver waits for its message; this is the most liberal behaviour MPI allows for bcast); the further
    broadcasts an action makes (state vectors) are part of the message.  The reduction at the end of
    MPIFiniteDifference._jac (_core/finite_difference.py:266), where process 0 waits for every leader, is the instruction [Join].
    An action that raises an exception is not modelled. *)
From Coq Require Import List Arith Lia Bool.
Import ListNotations.

(** mpi.py:24 *)
Definition STOP : nat := 0.

(** What process 0 does between apart() and together(). *)
Inductive instr :=
| SendL (a : nat)      (* mobilize_leaders(a), mpi.py:163-174 *)
| SendW (a : nat)      (* mobilize_workers(a) called by process 0 for its own group, mpi.py:176-182 *)
| Join.                (* comm_leaders.reduce: wait until all leaders finished all their tasks *)

(** The full program of process 0: apart() does nothing (260-261); together() stops the leaders (271-272) and then
    its own workers (274-275). *)
Definition program0 (script : list instr) : list instr := script ++ [SendL STOP; SendW STOP].

Inductive lmode :=
| LLoop                       (* blocked in comm_leaders.bcast, mpi.py:213-216 *)
| LRun (todo : list nat)      (* inside action(self, data): constants still to be sent to its workers, 222-223 *)
| LStop                       (* left the loop (218-220), about to run together(): stop_workers (274-275) *)
| LDone.

Record cfg := mkCfg {
  p0 : list instr;                    (* rest of the program of process 0 *)
  sent : nat;                         (* number of mobilize_leaders calls made so far *)
  lmode_of : nat -> lmode;            (* by group number; group 0 is led by process 0 and has no entry *)
  lqueue : nat -> list nat;           (* undelivered broadcasts on comm_leaders *)
  llog : nat -> list nat;             (* constants received in leaders_loop, oldest first *)
  lfinished : nat -> nat;             (* number of completed actions *)
  wqueue : nat -> nat -> list nat;    (* by group and worker: undelivered broadcasts on comm_groups *)
  wlog : nat -> nat -> list nat;      (* constants received in worker_loop *)
  wdone : nat -> nat -> bool }.       (* left worker_loop *)

Definition set1 {A} (f : nat -> A) (i : nat) (v : A) : nat -> A := fun j => if j =? i then v else f j.
Definition set2 {A} (f : nat -> nat -> A) (i w : nat) (v : A) : nat -> nat -> A :=
  fun j u => if (j =? i) && (u =? w) then v else f j u.

Section Network.
Variable ngroups : nat.                       (* number of groups *)
Variable nworkers : nat -> nat.               (* workers (non-leaders) of each group *)
(** What the action of the leader of group [i] sends to its workers for constant [c] (any function). *)
Variable acts : nat -> nat -> list nat.

Definition send_workers (c : cfg) (i a : nat) : nat -> nat -> list nat :=
  fun j u => if j =? i then wqueue c j u ++ [a] else wqueue c j u.

Definition init (script : list instr) : cfg :=
  mkCfg (program0 script) 0 (fun _ => LLoop) (fun _ => []) (fun _ => []) (fun _ => 0)
        (fun _ _ => []) (fun _ _ => []) (fun _ _ => false).

(** One step of one process; which one is arbitrary. *)
Inductive step (c : cfg) : cfg -> Prop :=
| S_sendL : forall a r, p0 c = SendL a :: r ->
    step c (mkCfg r (if a =? STOP then sent c else S (sent c)) (lmode_of c) (fun i => lqueue c i ++ [a])
                  (llog c) (lfinished c) (wqueue c) (wlog c) (wdone c))
| S_sendW : forall a r, p0 c = SendW a :: r ->
    step c (mkCfg r (sent c) (lmode_of c) (lqueue c) (llog c) (lfinished c) (send_workers c 0 a) (wlog c) (wdone c))
| S_join : forall r, p0 c = Join :: r -> (forall i, 1 <= i < ngroups -> lfinished c i = sent c) ->
    step c (mkCfg r (sent c) (lmode_of c) (lqueue c) (llog c) (lfinished c) (wqueue c) (wlog c) (wdone c))
| L_recv : forall i a q, 1 <= i < ngroups -> lmode_of c i = LLoop -> lqueue c i = a :: q ->
    step c (mkCfg (p0 c) (sent c) (set1 (lmode_of c) i (if a =? STOP then LStop else LRun (acts i a)))
                  (set1 (lqueue c) i q) (set1 (llog c) i (llog c i ++ [a])) (lfinished c)
                  (wqueue c) (wlog c) (wdone c))
| L_send : forall i a t, 1 <= i < ngroups -> lmode_of c i = LRun (a :: t) ->
    step c (mkCfg (p0 c) (sent c) (set1 (lmode_of c) i (LRun t)) (lqueue c) (llog c) (lfinished c)
                  (send_workers c i a) (wlog c) (wdone c))
| L_finish : forall i, 1 <= i < ngroups -> lmode_of c i = LRun [] ->
    step c (mkCfg (p0 c) (sent c) (set1 (lmode_of c) i LLoop) (lqueue c) (llog c)
                  (set1 (lfinished c) i (S (lfinished c i))) (wqueue c) (wlog c) (wdone c))
| L_stop : forall i, 1 <= i < ngroups -> lmode_of c i = LStop ->
    step c (mkCfg (p0 c) (sent c) (set1 (lmode_of c) i LDone) (lqueue c) (llog c) (lfinished c)
                  (send_workers c i STOP) (wlog c) (wdone c))
| W_recv : forall i w a q, i < ngroups -> w < nworkers i -> wdone c i w = false -> wqueue c i w = a :: q ->
    step c (mkCfg (p0 c) (sent c) (lmode_of c) (lqueue c) (llog c) (lfinished c)
                  (set2 (wqueue c) i w q) (set2 (wlog c) i w (wlog c i w ++ [a]))
                  (set2 (wdone c) i w (a =? STOP))).

Inductive steps : nat -> cfg -> cfg -> Prop :=
| steps_0 : forall c, steps 0 c c
| steps_S : forall n c c' c'', steps n c c' -> step c' c'' -> steps (S n) c c''.

(** All processes have returned from together(). *)
Definition all_returned (c : cfg) : Prop :=
  p0 c = [] /\ (forall i, 1 <= i < ngroups -> lmode_of c i = LDone) /\
  (forall i w, i < ngroups -> w < nworkers i -> wdone c i w = true).
End Network.
