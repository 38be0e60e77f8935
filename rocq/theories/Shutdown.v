(** H/concurrent_factory.hpp 116-143, 173-177: life of the members of
    concurrent_factory_class_impl: construction, the garbage collector thread
    and the destructor (H/ = /repo/include/boost/flyweight/).

    Two threads: the owner O runs the constructor, some time later the
    destructor; the collector G is started by the construction of the member
    gc.  std::mutex and std::condition_variable are taken at their
    specification: wait_for(lk,time,pred) is
      while(!pred())if(wait_until(lk,t)==timeout)return pred(); return true;
    and wait_until releases the mutex and starts waiting in one step, ends by a
    notification, a time-out or spuriously, at any time, and then locks the
    mutex again.  What the traversal of the container does is in
    [Concurrent.v]; here it is a sequence of accesses of any length. *)
From Verif Require Export Prelude.

Inductive owner := O_main | O_coll.

(** members in order of declaration (173-177) *)
Inductive member := Cont | Mtx | Cv | Stop | Gc.
Inductive status := Raw | Alive | Dead.
Global Instance member_eq : EqDecision member.
Proof. solve_decision. Defined.

(** collector: before line 125 | 126 pred() called by wait_for | about to
    wait | waiting | woken (by time-out?), needs the mutex | 126 pred() after
    a time-out | end of block 127, false | return, lock held | 128 [n] accesses left |
    the lambda returned *)
Inductive gpc :=
| G_start | G_test | G_sleep | G_wait | G_wake (timeout : bool) | G_test2 | G_leave | G_return | G_pass (n : nat) | G_exit.
(** owner: constructing members | using | 138 | 139 | 140 | 141 | 142 |
    destroying members | done *)
Inductive opc := O_build (ms : list member) | O_use | O_lock | O_set | O_unlock | O_notify | O_join | O_destroy (ms : list member) | O_done.

Record state := State {
  opos : opc;
  gpos : option gpc;                (* [None]: not started *)
  held : option owner;              (* the mutex m *)
  notified : bool;                  (* the waiting collector has been notified *)
  stop : bool;
  mem : member → status;
  accesses : list member;           (* ghost: accesses of the collector to members, newest first *)
}.

(** who steps; [L_wake b] ends the waiting without notification, by time-out
    if [b]; [L_pass n] starts a traversal of [n] accesses *)
Inductive label := L_own | L_gc | L_wake (timeout : bool) | L_pass (n : nat).
Global Instance gpc_eq : EqDecision gpc.
Proof. solve_decision. Defined.
Global Instance label_eq : EqDecision label.
Proof. solve_decision. Defined.
Inductive res := Next (s : state) | Stuck | Undef.

Definition decls : list member := [Cont; Mtx; Cv; Stop; Gc].               (* 173-177 *)
Definition start : state := State (O_build decls) None None false false (λ _, Raw) [].

Definition alive (s : state) (m : member) : bool := match mem s m with Alive => true | _ => false end.
Definition put_mem (m : member) (x : status) (f : member → status) : member → status := λ m', if decide (m' = m) then x else f m'.
Definition own_to (p : opc) (s : state) : state := State p (gpos s) (held s) (notified s) (stop s) (mem s) (accesses s).
Definition own_to_held (p : opc) (h : option owner) (s : state) : state := State p (gpos s) h (notified s) (stop s) (mem s) (accesses s).
Definition gc_to (p : gpc) (h : option owner) (a : list member) (s : state) : state :=
  State (opos s) (Some p) h (notified s) (stop s) (mem s) (a ++ accesses s).

(** members accessed by the next step of the collector *)
Definition touched (p : gpc) : list member :=
  match p with
  | G_start => [Mtx]
  | G_test | G_test2 => [Stop]
  | G_sleep => [Cv; Mtx]
  | G_wait => [Cv]
  | G_wake _ => [Mtx; Cv]
  | G_leave | G_return => [Mtx]
  | G_pass _ => [Cont]
  | G_exit => []
  end.

Definition gstep (s : state) (p : gpc) (l : label) : res :=
  let t := touched p in
  if negb (forallb (alive s) t) then Undef else
  match p, l with
  | G_start, L_gc => match held s with None => Next (gc_to G_test (Some O_coll) t s) | Some _ => Stuck end         (* 125 *)
  | G_test, L_gc => Next (gc_to (if stop s then G_return else G_sleep) (held s) t s)                               (* 126 *)
  | G_sleep, L_gc => let s := gc_to G_wait None t s in Next (State (opos s) (gpos s) (held s) false (stop s) (mem s) (accesses s))
  | G_wait, L_gc => if notified s then Next (gc_to (G_wake false) (held s) t s) else Stuck
  | G_wait, L_wake b => Next (gc_to (G_wake b) (held s) t s)
  | G_wake b, L_gc => match held s with None => Next (gc_to (if b then G_test2 else G_test) (Some O_coll) t s) | Some _ => Stuck end
  | G_test2, L_gc => Next (gc_to (if stop s then G_return else G_leave) (held s) t s)
  | G_return, L_gc => Next (gc_to G_exit None t s)                                                                  (* 126 return, ~lk *)
  | G_leave, L_pass n => Next (gc_to (G_pass n) None t s)                                                           (* 127 ~lk *)
  | G_pass (S n), L_gc => Next (gc_to (G_pass n) (held s) t s)                                                      (* 128 *)
  | G_pass 0, L_gc => Next (gc_to G_start (held s) t s)
  | _, _ => Stuck
  end.

Definition ostep (s : state) : res :=
  match opos s with
  | O_build [] => Next (own_to O_use s)
  | O_build (m :: ms) =>
      Next (State (O_build ms) (if decide (m = Gc) then Some G_start else gpos s) (held s) (notified s)
              (if decide (m = Stop) then false else stop s) (put_mem m Alive (mem s)) (accesses s))
  | O_use => Next (own_to O_lock s)                                                                                 (* destructor called *)
  | O_lock => if negb (alive s Mtx) then Undef else
              match held s with None => Next (own_to_held O_set (Some O_main) s) | Some _ => Stuck end              (* 138 *)
  | O_set => Next (State O_unlock (gpos s) (held s) (notified s) true (mem s) (accesses s))                         (* 139 *)
  | O_unlock => Next (own_to_held O_notify None s)                                                                  (* 140 *)
  | O_notify => if negb (alive s Cv) then Undef else
                Next (State O_join (gpos s) (held s) (match gpos s with Some G_wait => true | _ => notified s end)
                        (stop s) (mem s) (accesses s))                                                              (* 141 *)
  | O_join => match gpos s with Some G_exit => Next (own_to (O_destroy (rev decls)) s) | _ => Stuck end             (* 142 *)
  | O_destroy [] => Next (own_to O_done s)
  | O_destroy (m :: ms) => Next (State (O_destroy ms) (gpos s) (held s) (notified s) (stop s) (put_mem m Dead (mem s)) (accesses s))
  | O_done => Stuck
  end.

Definition step (s : state) (l : label) : res :=
  match l with
  | L_own => ostep s
  | _ => match gpos s with None => Stuck | Some p => gstep s p l end
  end.
Fixpoint run (s : state) (ls : list label) : res :=
  match ls with
  | [] => Next s
  | l :: ls => match step s l with Next s' => run s' ls | Stuck => run s ls | Undef => Undef end
  end.
