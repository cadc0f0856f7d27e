(** Stopping work early.  src/resource_limits.rs.  Threads share the state cell, the list of subscribers (behind a mutex) and the channels of
    capacity one.  Every access to one of them is a step of its own; steps of different threads interleave in any order.  Accesses
    are sequentially consistent.  The clock is a flag that may be raised at any time.  Left out: asynchronous timers and the measurement of memory (their
    outcome is a call of set_error), and [subscribe_to_stop], which exists in tests only. *)
From Coq Require Import Bool List Arith.
From Verif.Model Require Import Driver.
Import ListNotations.

(** Where the result of check_limits or set_error goes: to the caller, or to the first (232) or second (244) check of a watcher. *)
Inductive after := AReturn | AFirst | ASecond.
(** What a watcher does after unsubscribing: 234, 239-241, 242-247 *)
Inductive next := NStop | NFin | NSecond.
Inductive pc :=
| PIdle                                                          (* not started *)
| PReturn (r : option limit_error)                               (* returned to the caller *)
| PExit                                                          (* end of a watcher; its receiver is dropped *)
| PSubLock | PSubLoad | PSubAct (r : option limit_error)         (* subscribe *)
| PCas (e : limit_error) (a : after) | PLock (e : limit_error) (a : after)
| PSend (e : limit_error) (kept todo : list nat) (a : after) | PLoad (a : after)  (* set_error *)
| PCheck (a : after) | PClock (a : after)                        (* check_limits *)
| PSelect
| PUnLock (n : next) | PUnsub (n : next)                         (* unsubscribe *)
| PStop.                                                         (* about to call on_stop *)

(** A watcher and its channels have the same number. *)
Record sys := mksys {
  cell : option limit_error;          (* 134 *)
  mutex : option nat;                 (* 135: the thread that holds it *)
  subs : list nat;
  buf : nat -> option limit_error;    (* the message in the channel of a watcher *)
  done : nat -> bool;                 (* a message in the done channel, or its sender is dropped *)
  late : bool;                        (* there is a timeout, and it has passed *)
  stops : nat -> nat;                 (* calls of on_stop *)
  pcs : nat -> pc
}.
Definition set {A} (f : nat -> A) (t : nat) (v : A) (u : nat) : A := if Nat.eqb u t then v else f u.
Definition goto (t : nat) (p : pc) (S : sys) : sys := mksys (cell S) (mutex S) (subs S) (buf S) (done S) (late S) (stops S) (set (pcs S) t p).
Definition with_cell (c : option limit_error) (S : sys) : sys := mksys c (mutex S) (subs S) (buf S) (done S) (late S) (stops S) (pcs S).
Definition with_mutex (m : option nat) (S : sys) : sys := mksys (cell S) m (subs S) (buf S) (done S) (late S) (stops S) (pcs S).
Definition with_subs (l : list nat) (S : sys) : sys := mksys (cell S) (mutex S) l (buf S) (done S) (late S) (stops S) (pcs S).
Definition with_buf (c : nat) (m : option limit_error) (S : sys) : sys := mksys (cell S) (mutex S) (subs S) (set (buf S) c m) (done S) (late S) (stops S) (pcs S).

(** lock().unwrap(): waits while another thread holds it.  No thread panics while it holds the mutex, so it is not poisoned. *)
Definition acquire (t : nat) (p : pc) (S : sys) : option sys := match mutex S with None => Some (goto t p (with_mutex (Some t) S)) | Some _ => None end.
Definition release (t : nat) (p : pc) (S : sys) : sys := goto t p (with_mutex None S).
(** Whether the receiver of a channel exists. *)
Definition alive (S : sys) (c : nat) : bool := match pcs S c with PIdle | PExit | PReturn _ => false | _ => true end.

Definition ret (a : after) (r : option limit_error) : pc :=
  match a, r with
  | AReturn, r => PReturn r
  | AFirst, Some _ => PUnLock NStop
  | AFirst, None => PSelect
  | ASecond, Some _ => PStop
  | ASecond, None => PExit
  end.

(** One step of thread [t]; [b] decides between two ready channels.  [None]: it cannot go on now. *)
Definition run (t : nat) (b : bool) (S : sys) : option sys :=
  match pcs S t with
  | PIdle | PReturn _ | PExit => None
  (* 147-156 *)
  | PSubLock => acquire t PSubLoad S
  | PSubLoad => Some (goto t (PSubAct (cell S)) S)
  | PSubAct (Some e) => match buf S t with None => Some (release t (PCheck AFirst) (with_buf t (Some e) S)) | Some _ => None end
  | PSubAct None => Some (release t (PCheck AFirst) (with_subs (subs S ++ [t]) S))
  (* 163-173 *)
  | PCas e a => match cell S with None => Some (goto t (PLock e a) (with_cell (Some e) S)) | Some _ => Some (goto t (PLoad a) S) end
  | PLock e a => acquire t (PSend e [] (subs S) a) S
  | PSend e kept [] a => Some (release t (ret a (Some e)) (with_subs kept S))
  | PSend e kept (c :: todo) a =>
      if alive S c then match buf S c with None => Some (goto t (PSend e (kept ++ [c]) todo a) (with_buf c (Some e) S)) | Some _ => None end
      else Some (goto t (PSend e kept todo a) S)
  | PLoad a => Some (goto t (ret a (cell S)) S)
  (* 192-203 *)
  | PCheck a => match cell S with Some e => Some (goto t (ret a (Some e)) S) | None => Some (goto t (PClock a) S) end
  | PClock a => if late S then Some (goto t (PCas LTimeout a) S) else Some (goto t (ret a None) S)
  (* 238-248 *)
  | PSelect =>
      match done S t, buf S t with
      | false, None => None
      | true, None => Some (goto t (PUnLock NFin) S)
      | false, Some _ => Some (goto t (PUnLock NSecond) (with_buf t None S))
      | true, Some _ => if b then Some (goto t (PUnLock NFin) S) else Some (goto t (PUnLock NSecond) (with_buf t None S))
      end
  (* 158-161 *)
  | PUnLock n => acquire t (PUnsub n) S
  | PUnsub n => Some (release t (match n with NStop => PStop | NFin => PExit | NSecond => PCheck ASecond end)
                        (with_subs (filter (fun c => negb (Nat.eqb c t)) (subs S)) S))
  | PStop => Some (goto t PExit (mksys (cell S) (mutex S) (subs S) (buf S) (done S) (late S) (set (stops S) t (Datatypes.S (stops S t))) (pcs S)))
  end.

(** What starts from outside: a call of set_error, of check_limits, or a new watcher (224-251). *)
Inductive role := Setter (e : limit_error) | Checker | Watcher.
Definition entry (r : role) : pc := match r with Setter e => PCas e AReturn | Checker => PCheck AReturn | Watcher => PSubLock end.
Inductive event := EStart (t : nat) (r : role) | EDone (t : nat) | ELate | ERun (t : nat) (b : bool).
Definition step (S : sys) (ev : event) : option sys :=
  match ev with
  | EStart t r => match pcs S t with PIdle => Some (goto t (entry r) S) | _ => None end
  | EDone t => Some (mksys (cell S) (mutex S) (subs S) (buf S) (set (done S) t true) (late S) (stops S) (pcs S))
  | ELate => Some (mksys (cell S) (mutex S) (subs S) (buf S) (done S) true (stops S) (pcs S))
  | ERun t b => run t b S
  end.
Fixpoint steps (S : sys) (l : list event) : option sys :=
  match l with
  | [] => Some S
  | ev :: l => match step S ev with Some S' => steps S' l | None => None end
  end.
(** 182-189 *)
Definition start : sys := mksys None None [] (fun _ => None) (fun _ => false) false (fun _ => 0) (fun _ => PIdle).
