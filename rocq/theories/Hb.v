(** Ordering of memory accesses with refcounted tracking and simple_locking:
    H/refcounted.hpp 96-151, H/detail/flyweight_core.hpp 61-75, 261-312,
    H/simple_locking.hpp (H/ = /repo/include/boost/flyweight/).

    [Core.v] takes steps one at a time and asks which states they lead to; this
    machine asks which accesses happen before which in the sense of the C++
    memory model.  Every access is an event; a thread knows the events that
    happen before its next step; the mutex, the atomic counter and the
    flyweight objects pass this knowledge on.  Two accesses to memory, one of
    them a write, that are not ordered in this way are a data race, and
    destroying an entry must happen after every access to it, atomic or not:
    the machine ends in [Bad] otherwise.

    boost::detail::atomic_count is not in /repo; [inc_sync]: its increment
    acquires and releases (it may as well be relaxed), [dec_rel], [dec_acq]: the
    decrement releases, acquires.  Read-modify-write operations continue the
    release sequences of earlier ones, so that what has been released to the
    counter is never lost.

    One key (others appear as accesses to the factory).  Programs use a
    flyweight object as any other: accesses that conflict are ordered by means
    of their own; this is what [objs] keeps: what happened before the object
    was made, and before the reading uses since. *)
From Verif Require Export Prelude.
From Coq Require Export ZArith.

Notation tid := nat (only parsing).
Notation events := (gset nat) (only parsing).

(** [Unlock b]: b, a handle has been made *)
Inductive pc :=
| CLock | CIns | CRef | CDel | Unlock (b : bool)
| KRef (x : nat) | GGet (x : nat)
| DRef | DLock | DDel
| OLock | OFac.
Inductive op := ONew | OCopy (x : nat) | OGet (x : nat) | ODestroy (x : nat) | OOther.

Record entry := Entry {
  val : nat;                     (* construction of entry and value *)
  evs : events;                  (* accesses so far *)
  ref : Z; cset : events;        (* the atomic counter; what has been released to it *)
  del : Z; ldel : option nat;    (* the plain counter; the last access to it *)
}.
Record state := State {
  own : option tid; mset : events;                 (* the mutex; what has been released to it *)
  ent : option entry;
  lfac : option nat;                               (* last access to the container *)
  objs : gmap nat (events * events); nob : nat;    (* flyweights *)
  kn : gmap tid events;                            (* what happens before the next step of a thread *)
  thr : gmap tid pc;
  nxt : nat;
}.
Inductive res := Next (s : state) | Stuck | Bad.
Definition init : state := State None ∅ None None ∅ 0 ∅ ∅ 0.

Definition knows (s : state) (t : tid) : events := default ∅ (kn s !! t).
Definition learn (t : tid) (E : events) (s : state) : state :=
  State (own s) (mset s) (ent s) (lfac s) (objs s) (nob s) (<[t:=knows s t ∪ E]> (kn s)) (thr s) (nxt s).
Definition go (t : tid) (p : option pc) (s : state) : state :=
  State (own s) (mset s) (ent s) (lfac s) (objs s) (nob s) (kn s) (match p with Some p => <[t:=p]> (thr s) | None => delete t (thr s) end) (nxt s).
Definition set_ent (n : option entry) (s : state) : state := State (own s) (mset s) n (lfac s) (objs s) (nob s) (kn s) (thr s) (nxt s).
Definition set_objs (m : gmap nat (events * events)) (s : state) : state := State (own s) (mset s) (ent s) (lfac s) m (nob s) (kn s) (thr s) (nxt s).
Definition add_obj (w : events) (s : state) : state :=
  State (own s) (mset s) (ent s) (lfac s) (<[nob s:=(w, ∅)]> (objs s)) (S (nob s)) (kn s) (thr s) (nxt s).
(** the object has been read *)
Definition used (x : nat) (E : events) (s : state) : state :=
  match objs s !! x with Some (w, r) => set_objs (<[x:=(w, r ∪ E)]> (objs s)) s | None => s end.

Definition known (e : option nat) (E : events) : bool := match e with Some e => bool_decide (e ∈ E) | None => true end.

(** a new event of [t] *)
Definition event (t : tid) (s : state) : state :=
  State (own s) (mset s) (ent s) (lfac s) (objs s) (nob s) (<[t:=knows s t ∪ {[nxt s]}]> (kn s)) (thr s) (S (nxt s)).
(** access to the entry: its construction must be known *)
Definition access (t : tid) (s : state) : option (entry * state) :=
  match ent s with
  | Some n => if bool_decide (val n ∈ knows s t)
              then Some (Entry (val n) (evs n ∪ {[nxt s]}) (ref n) (cset n) (del n) (ldel n), event t s) else None
  | None => None
  end.
Definition fac_access (t : tid) (s : state) : option state :=
  if known (lfac s) (knows s t)
  then let s' := event t s in
       Some (State (own s') (mset s') (ent s') (Some (nxt s)) (objs s') (nob s') (kn s') (thr s') (nxt s'))
  else None.

Section machine.
  Context (inc_sync dec_rel dec_acq : bool).

  Definition acquire (t : tid) (p : pc) (s : state) : res :=
    match own s with
    | None => let s := go t (Some p) (learn t (mset s) s) in
              Next (State (Some t) (mset s) (ent s) (lfac s) (objs s) (nob s) (kn s) (thr s) (nxt s))
    | Some _ => Stuck
    end.
  Definition release (t : tid) (s : state) : res :=
    let s := go t None s in
    Next (State None (mset s ∪ knows s t) (ent s) (lfac s) (objs s) (nob s) (kn s) (thr s) (nxt s)).

  (** refcounted.hpp 96 *)
  Definition incr (t : tid) (s : state) : option (Z * state) :=
    match access t s with
    | Some (n, s) =>
        let s := if inc_sync then learn t (cset n) s else s in
        let c := if inc_sync then cset n ∪ knows s t else cset n in
        Some ((ref n + 1)%Z, set_ent (Some (Entry (val n) (evs n) (ref n + 1) c (del n) (ldel n))) s)
    | None => None
    end.
  (** 97 *)
  Definition decr (t : tid) (s : state) : option (Z * state) :=
    match access t s with
    | Some (n, s) =>
        let s := if dec_acq then learn t (cset n) s else s in
        let c := if dec_rel then cset n ∪ knows s t else cset n in
        Some ((ref n - 1)%Z, set_ent (Some (Entry (val n) (evs n) (ref n - 1) c (del n) (ldel n))) s)
    | None => None
    end.
  (** 99-100 *)
  Definition add_del (t : tid) (d : Z) (s : state) : option (Z * state) :=
    match access t s with
    | Some (n, s') =>
        if known (ldel n) (knows s t)
        then Some ((del n + d)%Z, set_ent (Some (Entry (val n) (evs n) (ref n) (cset n) (del n + d) (Some (nxt s)))) s')
        else None
    | None => None
    end.
  (** the entry is destroyed: all accesses must have happened before *)
  Definition destroy (t : tid) (s : state) : option state :=
    match ent s with
    | Some n => if bool_decide (evs n ⊆ knows s t) then Some (set_ent None s) else None
    | None => None
    end.
  (** found, *)
  Definition look (t : tid) (s : state) : option state :=
    match ent s with
    | Some _ => match access t s with Some (n, s) => Some (set_ent (Some n) s) | None => None end
    | None => Some s
    end.
  (** or constructed; the construction is the first event *)
  Definition insert_entry (t : tid) (s : state) : option state :=
    match ent s with
    | Some _ => look t s
    | None => Some (set_ent (Some (Entry (nxt s) {[nxt s]} 0 ∅ 0 None)) (event t s))
    end.

  Definition uses (x : nat) (p : pc) : bool := match p with KRef y | GGet y => bool_decide (x = y) | _ => false end.
  Definition begin (t : tid) (o : op) (s : state) : res :=
    match thr s !! t with
    | Some _ => Stuck
    | None =>
        match o with
        | ONew => Next (go t (Some CLock) s)
        | OOther => Next (go t (Some OLock) s)
        | OCopy x | OGet x =>
            match objs s !! x with
            | Some (w, _) => Next (go t (Some match o with OCopy _ => KRef x | _ => GGet x end) (learn t w s))
            | None => Stuck
            end
        | ODestroy x =>
            match objs s !! x with
            | Some (w, r) =>
                if bool_decide (map_Exists (λ _ p, uses x p = true) (thr s)) then Stuck
                else Next (go t (Some DRef) (set_objs (delete x (objs s)) (learn t (w ∪ r) s)))
            | None => Stuck
            end
        end
    end.
  Definition step_thread (t : tid) (fails : bool) (s : state) : res :=
    match thr s !! t with
    | None => Stuck
    | Some p =>
        match p with
        | CLock => acquire t CIns s                                                              (* flyweight_core.hpp 265 *)
        | CIns =>                                                                                (* 268, 102-117 *)
            match fac_access t s with
            | None => Bad
            | Some s =>
                if fails then Next (go t (Some (Unlock false)) s)
                else match insert_entry t s with Some s => Next (go t (Some CRef) s) | None => Bad end
            end
        | CRef =>                                                                                (* refcounted.hpp 114 *)
            match incr t s with
            | Some (r, s) => Next (go t (Some (if (r =? 1)%Z then CDel else Unlock true)) s)
            | None => Bad
            end
        | CDel => match add_del t 1 s with Some (_, s) => Next (go t (Some (Unlock true)) s) | None => Bad end  (* 115 *)
        | Unlock b => release t (if b then add_obj (knows s t) s else s)
        | KRef x =>                                                                              (* 121 *)
            match incr t s with Some (_, s) => Next (go t None (used x (knows s t) (add_obj (knows s t) s))) | None => Bad end
        | GGet x =>                                                                              (* flyweight.hpp 249-251 *)
            match access t s with Some (n, s) => Next (go t None (used x (knows s t) (set_ent (Some n) s))) | None => Bad end
        | DRef =>                                                                                (* refcounted.hpp 132 *)
            match decr t s with Some (r, s) => Next (go t (if (r =? 0)%Z then Some DLock else None) s) | None => Bad end
        | DLock => acquire t DDel s                                                              (* flyweight_core.hpp 72 *)
        | DDel =>                                                                                (* 73 *)
            match add_del t (-1) s with
            | Some (d, s) =>
                if (d =? 0)%Z
                then match fac_access t s with
                     | Some s => match destroy t s with Some s => Next (go t (Some (Unlock false)) s) | None => Bad end
                     | None => Bad
                     end
                else Next (go t (Some (Unlock false)) s)
            | None => Bad
            end
        | OLock => acquire t OFac s
        | OFac =>                                                                                (* keys of entries are compared *)
            match fac_access t s with
            | Some s => match look t s with Some s => Next (go t (Some (Unlock false)) s) | None => Bad end
            | None => Bad
            end
        end
    end.
  (** [LSync t u]: the program orders what t did so far before what u does next *)
  Inductive label := LStart (t : tid) (o : op) | LStep (t : tid) (fails : bool) | LSync (t u : tid).
  Definition step (s : state) (l : label) : res :=
    match l with LStart t o => begin t o s | LStep t b => step_thread t b s | LSync t u => Next (learn u (knows s t) s) end.
  Fixpoint run (s : state) (ls : list label) : res :=
    match ls with
    | [] => Next s
    | l :: ls => match step s l with Next s' => run s' ls | Stuck => run s ls | Bad => Bad end
    end.
End machine.
