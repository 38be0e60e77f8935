(** refcounted tracking on top of concurrent_factory, as in
    flyweight<T,concurrent_factory<> >: every flyweight then holds a
    detail::refcounted_handle (H/refcounted.hpp 108-151) which holds a
    concurrent_factory_detail::refcounted_handle (H/concurrent_factory.hpp
    55-84), each with counters of its own in the entry: [inner]
    (concurrent_factory.hpp 52, atomic), [ref] (refcounted.hpp 104, atomic) and
    [del] (105, a plain long).  H/detail/flyweight_core.hpp 61-75, 261-312;
    H/ = /repo/include/boost/flyweight/.

    The machine follows one key; threads busy with other keys appear only as
    owners of the mutex.  boost::concurrent_node_set gives exclusive access to
    an element during insert_and_visit and erase_if.  Flyweights made, copied
    and destroyed are interchangeable ([objs]); one that is being copied, read
    or destroyed is in use by that thread alone.  Assignment is a copy and a
    destruction (124-128).  concurrent_factory's entry takes a handle by value
    (170), so that every access to the entry makes a copy of the inner handle
    and destroys it; only the copy made by erase is modelled, as the thread
    holds another handle throughout. *)
From Verif Require Export Prelude.
From Coq Require Export ZArith.

Notation tid := nat (only parsing).
(** [CUnlock b]: b, a handle has been made *)
Inductive pc :=
| CLock | CIns | CCopy | CRef | CDel | CTmp | CUnlock (b : bool)
| KIn | KRef | GGet
| DRef | DLock | DDel | DArg | DArgEnd | DUnlock | DIn
| OLock | OUnlock.
(** [FailNode]: the lookup or the node's construction throws; [FailValue]: the value's constructor does *)
Inductive outcome := Fine | FailNode | FailValue.
Inductive op := ONew | OCopy | OGet | ODestroy | OOther.

Record state := State {
  owner : option tid;                           (* the mutex; its owner *)
  alive : bool;                                 (* there is an entry with the key *)
  inner : Z; ref : Z; del : Z;                  (* its counters *)
  objs : nat;                                   (* flyweights not in use by a thread *)
  thr : gmap tid pc;
}.
Inductive res := Next (s : state) | Stuck | Undef.
Definition init : state := State None false 0 0 0 0 ∅.

Definition set_thr (t : tid) (p : option pc) (s : state) : state :=
  State (owner s) (alive s) (inner s) (ref s) (del s) (objs s) (match p with Some p => <[t:=p]> (thr s) | None => delete t (thr s) end).
Definition set_owner (o : option tid) (s : state) : state := State o (alive s) (inner s) (ref s) (del s) (objs s) (thr s).
Definition set_inner (n : Z) (s : state) : state := State (owner s) (alive s) n (ref s) (del s) (objs s) (thr s).
Definition set_ref (n : Z) (s : state) : state := State (owner s) (alive s) (inner s) n (del s) (objs s) (thr s).
Definition set_del (n : Z) (s : state) : state := State (owner s) (alive s) (inner s) (ref s) n (objs s) (thr s).
Definition set_objs (n : nat) (s : state) : state := State (owner s) (alive s) (inner s) (ref s) (del s) n (thr s).
Definition new_entry (s : state) : state := State (owner s) true 0 0 0 (objs s) (thr s).

Section machine.
  (** simple_locking or no_locking *)
  Context (lck : bool).

  Definition acquire (t : tid) (p : pc) (s : state) : res :=
    if lck then match owner s with None => Next (set_owner (Some t) (set_thr t (Some p) s)) | Some _ => Stuck end
    else Next (set_thr t (Some p) s).
  Definition release (p : option pc) (t : tid) (s : state) : res :=
    Next ((if lck then set_owner None else id) (set_thr t p s)).
  (** access to the entry *)
  Definition on_entry (s : state) (s' : state) : res := if alive s then Next s' else Undef.

  Definition begin (t : tid) (o : op) (s : state) : res :=
    match thr s !! t with
    | Some _ => Stuck
    | None =>
        match o with
        | ONew => Next (set_thr t (Some CLock) s)
        | OOther => Next (set_thr t (Some OLock) s)
        | OCopy | OGet | ODestroy =>
            match objs s with
            | 0 => Stuck
            | S n => Next (set_objs n (set_thr t (Some match o with OCopy => KIn | OGet => GGet | _ => DRef end) s))
            end
        end
    end.
  Definition step_thread (t : tid) (f : outcome) (s : state) : res :=
    match thr s !! t with
    | None => Stuck
    | Some p =>
        match p with
        | CLock => acquire t CIns s                                                                  (* flyweight_core.hpp 264-265 *)
        | CIns =>                                                                                    (* concurrent_factory.hpp 154-162 *)
            let s' := if alive s then s else new_entry s in
            match f with
            | FailNode => Next (set_thr t (Some (CUnlock false)) s)
            | FailValue => Next (set_thr t (Some (CUnlock false)) s')
            | Fine => Next (set_inner (inner s' + 1) (set_thr t (Some CCopy) s'))
            end
        | CCopy => on_entry s (set_inner (inner s + 1) (set_thr t (Some CRef) s))                    (* refcounted.hpp 112 *)
        | CRef => on_entry s (set_ref (ref s + 1) (set_thr t (Some (if (ref s + 1 =? 1)%Z then CDel else CTmp)) s))  (* 114 *)
        | CDel => on_entry s (set_del (del s + 1) (set_thr t (Some CTmp) s))                         (* 115 *)
        | CTmp => on_entry s (set_inner (inner s - 1) (set_thr t (Some (CUnlock true)) s))           (* the handle returned by insert_and_visit *)
        | CUnlock b => release None t (if b then set_objs (S (objs s)) s else s)                     (* flyweight_core.hpp 265 *)
        | KIn => on_entry s (set_inner (inner s + 1) (set_thr t (Some KRef) s))                      (* refcounted.hpp 119 *)
        | KRef => on_entry s (set_ref (ref s + 1) (set_objs (S (S (objs s))) (set_thr t None s)))    (* 121 *)
        | GGet => on_entry s (set_objs (S (objs s)) (set_thr t None s))                              (* concurrent_factory.hpp 170 *)
        | DRef => on_entry s (set_ref (ref s - 1) (set_thr t (Some (if (ref s - 1 =? 0)%Z then DLock else DIn)) s))  (* 132 *)
        | DLock => acquire t DDel s                                                                  (* flyweight_core.hpp 72 *)
        | DDel => on_entry s (set_del (del s - 1) (set_thr t (Some (if (del s - 1 =? 0)%Z then DArg else DUnlock)) s))  (* 73, refcounted.hpp 147 *)
        | DArg => on_entry s (set_inner (inner s + 1) (set_thr t (Some DArgEnd) s))                  (* concurrent_factory.hpp 165: by value *)
        | DArgEnd => on_entry s (set_inner (inner s - 1) (set_thr t (Some DUnlock) s))
        | DUnlock => release (Some DIn) t s                                                          (* flyweight_core.hpp 74 *)
        | DIn => on_entry s (set_inner (inner s - 1) (set_thr t None s))                             (* concurrent_factory.hpp 60 *)
        | OLock => acquire t OUnlock s
        | OUnlock => release None t s
        end
    end.
  Inductive label := LStart (t : tid) (o : op) | LStep (t : tid) (f : outcome) | LGc.
  (** concurrent_factory.hpp 128 at the entry *)
  Definition collect (s : state) : res :=
    if alive s then if (inner s =? 0)%Z then Next (State (owner s) false 0 0 0 (objs s) (thr s)) else Next s else Next s.
  Definition step (s : state) (l : label) : res :=
    match l with LStart t o => begin t o s | LStep t b => step_thread t b s | LGc => collect s end.
  Fixpoint run (s : state) (ls : list label) : res :=
    match ls with
    | [] => Next s
    | l :: ls => match step s l with Next s' => run s' ls | Stuck => run s ls | Undef => Undef end
    end.
End machine.
