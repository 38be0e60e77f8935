(** H/detail/recursive_lw_mutex.hpp 37-55 (75-106 with Pthreads): the lock
    class scoped_lock over a recursive mutex, in threads that run arbitrary
    block-structured code with exceptions (H/ = /repo/include/boost/flyweight/).

    The mutex itself (std::recursive_mutex, PTHREAD_MUTEX_RECURSIVE) is not
    part of the library and taken at its specification: [m_lock] is granted to
    the owner or if there is none, and may fail with an exception (system
    error) without effect; [m_unlock] by a thread which is not the owner is
    undefined. *)
From Verif Require Export Prelude.

Notation tid := nat (only parsing).

(** owner and number of locks, [None]: free *)
Definition mutex : Type := option (tid * nat).
Definition m_lock (t : tid) (m : mutex) : option mutex :=
  match m with
  | None => Some (Some (t, 1))
  | Some (o, d) => if decide (o = t) then Some (Some (t, S d)) else None     (* waits *)
  end.
Definition m_unlock (t : tid) (m : mutex) : option mutex :=
  match m with
  | Some (o, S d) => if decide (o = t) then Some (if decide (d = 0) then None else Some (t, d)) else None
  | _ => None                                                               (* undefined *)
  end.

(** [SLock b]: \{ scoped_lock lock(m); b \} *)
Inductive stmt :=
| SWork
| SThrow
| SLock (b : list stmt)
| STry (b h : list stmt).

(** what a thread still has to do; [Unlock]: 47 ~scoped_lock at the end of a
    block; [Catch h]: end of a try block *)
Inductive item := Do (s : stmt) | Unlock | Catch (h : list stmt).
(** [th_exc]: an exception is being propagated *)
Record thread := Thread { th_code : list item; th_exc : bool }.

Inductive event := Locked (t : tid) | Unlocked (t : tid).
Record state := State { mtx : mutex; threads : gmap tid thread; log : list event (* ghost, newest first *) }.
Inductive res := Next (s : state) | Stuck | Undef.

Definition set_thread (t : tid) (th : thread) (s : state) : state := State (mtx s) (<[t:=th]> (threads s)) (log s).
Definition unlock (t : tid) (k : list item) (exc : bool) (s : state) : res :=
  match m_unlock t (mtx s) with
  | Some m => Next (State m (<[t:=Thread k exc]> (threads s)) (Unlocked t :: log s))
  | None => Undef
  end.

(** one step of thread [t]; [fail]: lock() throws *)
Definition step (s : state) (l : tid * bool) : res :=
  let (t, fail) := l in
  match threads s !! t with
  | None => Stuck
  | Some (Thread k exc) =>
      match k with
      | [] => Stuck
      | Do c :: k =>
          if exc then Next (set_thread t (Thread k true) s) else             (* skipped by the exception *)
          match c with
          | SWork => Next (set_thread t (Thread k false) s)
          | SThrow => Next (set_thread t (Thread k true) s)
          | SLock b =>                                                       (* 46 *)
              if fail then Next (set_thread t (Thread k true) s)
              else match m_lock t (mtx s) with
                   | Some m => Next (State m (<[t:=Thread (map Do b ++ Unlock :: k) false]> (threads s)) (Locked t :: log s))
                   | None => Stuck
                   end
          | STry b h => Next (set_thread t (Thread (map Do b ++ Catch h :: k) false) s)
          end
      | Unlock :: k => unlock t k exc s                                      (* 47, also while unwinding *)
      | Catch h :: k =>
          if exc then Next (set_thread t (Thread (map Do h ++ k) false) s) else Next (set_thread t (Thread k false) s)
      end
  end.

Fixpoint run (s : state) (ls : list (tid * bool)) : res :=
  match ls with
  | [] => Next s
  | l :: ls => match step s l with Next s' => run s' ls | Stuck => run s ls | Undef => Undef end
  end.

(** threads about to run the given blocks *)
Definition start (ps : list (list stmt)) : state :=
  State None (list_to_map (imap (λ t b, (t, Thread (map Do b) false)) ps)) [].
