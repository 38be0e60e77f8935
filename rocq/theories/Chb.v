(** Ordering of memory accesses with concurrent_factory and no_tracking:
    H/concurrent_factory.hpp 40-173, H/key_value.hpp 103-143, 264-270 (H/ =
    /repo/include/boost/flyweight/).

    As [Hb.v], every access is an event and threads know the events that
    happen before their next step.  Here the counter of an entry is also
    loaded (count, 47), by the garbage collector: the load may return any
    value the counter had that no write known to the collector has replaced
    ([hist], newest first).  boost::concurrent_node_set gives exclusive access
    to an element while it is visited, by insert_and_visit and by erase_if; a
    visit of the element happens before the next.

    The code uses the default, sequentially consistent operations of
    std::atomic_long.  [inc_sync]: increments acquire and release, [dec_rel],
    [dec_acq]: decrements release, acquire, [load_acq]: the load acquires.

    One key; visits for keys that are compared with it appear as [OOther].  Any
    number of collectors.  The value is constructed in the entry by the first
    visit whose constructor does not throw. *)
From Verif Require Export Prelude.
From Coq Require Export ZArith.

Notation tid := nat (only parsing).
Notation events := (gset nat) (only parsing).

(** [Unlock b]: b, a handle has been made *)
Inductive pc :=
| VLock | VFind | VValue | VRef | Unlock (b : bool)
| KRef (x : nat)
| GInc (x : nat) | GDec (x : nat) | GRead (x : nat)
| DRef
| ELock | ELoad | Erase
| OLock | OKey.
Inductive op := ONew | OCopy (x : nat) | OGet (x : nat) | ODestroy (x : nat) | OCollect | OOther.

(** a value of the counter: written by, value, released to it *)
Notation write := (nat * Z * gset nat)%type (only parsing).
Record entry := Entry {
  cre : nat;                     (* construction of the entry, with its key *)
  val : option nat;              (* construction of the value *)
  evs : events;                  (* accesses so far *)
  hist : list write;
}.
Record state := State {
  own : option tid; mset : events;                 (* the element's lock; what has been released to it *)
  ent : option entry;
  objs : gmap nat (events * events); nob : nat;    (* flyweights; see Hb.v *)
  kn : gmap tid events;
  thr : gmap tid pc;
  nxt : nat;
}.
Inductive res := Next (s : state) | Stuck | Bad.
Definition init : state := State None ∅ None ∅ 0 ∅ ∅ 0.

Definition knows (s : state) (t : tid) : events := default ∅ (kn s !! t).
Definition learn (t : tid) (E : events) (s : state) : state :=
  State (own s) (mset s) (ent s) (objs s) (nob s) (<[t:=knows s t ∪ E]> (kn s)) (thr s) (nxt s).
Definition go (t : tid) (p : option pc) (s : state) : state :=
  State (own s) (mset s) (ent s) (objs s) (nob s) (kn s) (match p with Some p => <[t:=p]> (thr s) | None => delete t (thr s) end) (nxt s).
Definition set_ent (n : option entry) (s : state) : state := State (own s) (mset s) n (objs s) (nob s) (kn s) (thr s) (nxt s).
Definition set_objs (m : gmap nat (events * events)) (s : state) : state := State (own s) (mset s) (ent s) m (nob s) (kn s) (thr s) (nxt s).
Definition add_obj (w : events) (s : state) : state :=
  State (own s) (mset s) (ent s) (<[nob s:=(w, ∅)]> (objs s)) (S (nob s)) (kn s) (thr s) (nxt s).
(** the object has been read *)
Definition used (x : nat) (E : events) (s : state) : state :=
  match objs s !! x with Some (w, r) => set_objs (<[x:=(w, r ∪ E)]> (objs s)) s | None => s end.
(** a new event of [t] *)
Definition event (t : tid) (s : state) : state :=
  State (own s) (mset s) (ent s) (objs s) (nob s) (<[t:=knows s t ∪ {[nxt s]}]> (kn s)) (thr s) (S (nxt s)).
(** access to the entry: its construction must be known *)
Definition access (t : tid) (s : state) : option (entry * state) :=
  match ent s with
  | Some n => if bool_decide (cre n ∈ knows s t) then Some (Entry (cre n) (val n) (evs n ∪ {[nxt s]}) (hist n), event t s) else None
  | None => None
  end.

Section machine.
  Context (inc_sync dec_rel dec_acq load_acq : bool).

  Definition acquire (t : tid) (p : pc) (s : state) : res :=
    match own s with
    | None => let s := go t (Some p) (learn t (mset s) s) in
              Next (State (Some t) (mset s) (ent s) (objs s) (nob s) (kn s) (thr s) (nxt s))
    | Some _ => Stuck
    end.
  Definition release (t : tid) (s : state) : res :=
    let s := go t None s in
    Next (State None (mset s ∪ knows s t) (ent s) (objs s) (nob s) (kn s) (thr s) (nxt s)).

  (** a read-modify-write reads the newest value and continues its release sequence *)
  Definition rmw (acq rel : bool) (d : Z) (t : tid) (s : state) : option state :=
    match access t s with
    | Some (n, s') =>
        match hist n with
        | (_, v, C) :: _ =>
            let s' := if acq then learn t C s' else s' in
            let C := if rel then C ∪ knows s' t else C in
            Some (set_ent (Some (Entry (cre n) (val n) (evs n) ((nxt s, v + d, C)%Z :: hist n))) s')
        | [] => None
        end
    | None => None
    end.
  (** concurrent_factory.hpp 48, 49 *)
  Definition incr := rmw inc_sync inc_sync 1.
  Definition decr := rmw dec_acq dec_rel (-1).
  (** 47: the i-th newest value, unless a newer one is known *)
  Definition load (t : tid) (i : nat) (s : state) : option (option (Z * state)) :=
    match access t s with
    | Some (n, s') =>
        match hist n !! i with
        | Some (_, v, C) =>
            if forallb (λ w, bool_decide (w.1.1 ∉ knows s t)) (take i (hist n))
            then Some (Some (v, set_ent (Some n) (if load_acq then learn t C s' else s'))) else Some None
        | None => Some None
        end
    | None => None
    end.
  (** the entry is destroyed: all accesses must have happened before *)
  Definition destroy (t : tid) (s : state) : option state :=
    match ent s with
    | Some n => if bool_decide (evs n ⊆ knows s t) then Some (set_ent None s) else None
    | None => None
    end.
  (** its key is read: key_value.hpp 103-109 *)
  Definition look (t : tid) (s : state) : option state :=
    match ent s with
    | Some _ =>
        match access t s with
        | Some (n, s') =>
            match val n with
            | Some e => if bool_decide (e ∈ knows s t) then Some (set_ent (Some n) s') else None
            | None => Some (set_ent (Some n) s')
            end
        | None => None
        end
    | None => Some s
    end.
  (** the construction is the first event *)
  Definition find_or_make (t : tid) (s : state) : option state :=
    match ent s with
    | Some _ => look t s
    | None => Some (set_ent (Some (Entry (nxt s) None {[nxt s]} [(nxt s, 0%Z, ∅)])) (event t s))
    end.
  (** key_value.hpp 136-143, 264-270: value_cted is read; if it is false it is
      written, the value is constructed and the key destroyed, which must
      happen after all accesses so far *)
  Definition make_value (t : tid) (s : state) : option state :=
    match access t s with
    | Some (n, s') =>
        match val n with
        | Some e => if bool_decide (e ∈ knows s t) then Some (set_ent (Some n) s') else None
        | None => if bool_decide (evs n ⊆ knows s' t) then Some (set_ent (Some (Entry (cre n) (Some (nxt s)) (evs n) (hist n))) s') else None
        end
    | None => None
    end.
  Definition read_value (t : tid) (s : state) : option state :=
    match access t s with
    | Some (n, s') =>
        match val n with
        | Some e => if bool_decide (e ∈ knows s t) then Some (set_ent (Some n) s') else None
        | None => None
        end
    | None => None
    end.

  Definition uses (x : nat) (p : pc) : bool := match p with KRef y | GInc y | GDec y | GRead y => bool_decide (x = y) | _ => false end.
  Definition begin (t : tid) (o : op) (s : state) : res :=
    match thr s !! t with
    | Some _ => Stuck
    | None =>
        match o with
        | ONew => Next (go t (Some VLock) s)
        | OCollect => Next (go t (Some ELock) s)
        | OOther => Next (go t (Some OLock) s)
        | OCopy x | OGet x =>
            match objs s !! x with
            | Some (w, _) => Next (go t (Some match o with OCopy _ => KRef x | _ => GInc x end) (learn t w s))
            | None => Stuck
            end
        | ODestroy x =>
            match objs s !! x with
            | Some (w, r) =>
                if bool_decide (map_Exists (λ _ p, uses x p = true) (thr s)) then Stuck
                else Next (go t (Some DRef) (set_objs (delete x (objs s)) (learn t (w ∪ r) s)))
            | None => Stuck
            end
        end
    end.
  Definition next (t : tid) (p : option pc) (o : option state) : res := match o with Some s => Next (go t p s) | None => Bad end.
  (** [i]: which value a load returns; [fails]: the constructor throws *)
  Definition step_thread (t : tid) (i : nat) (fails : bool) (s : state) : res :=
    match thr s !! t with
    | None => Stuck
    | Some p =>
        match p with
        | VLock => acquire t VFind s                                                              (* concurrent_factory.hpp 161 *)
        | VFind => if fails then next t (Some (Unlock false)) (look t s) else next t (Some VValue) (find_or_make t s)
        | VValue =>                                                                               (* 156 *)
            if fails then next t (Some (Unlock false)) (look t s) else next t (Some VRef) (make_value t s)
        | VRef => next t (Some (Unlock true)) (incr t s)                                          (* 157 *)
        | Unlock b => release t (if b then add_obj (knows s t) s else s)
        | KRef x =>                                                                               (* 59 *)
            match incr t s with Some s => Next (go t None (used x (knows s t) (add_obj (knows s t) s))) | None => Bad end
        | GInc x => next t (Some (GDec x)) (incr t s)                                             (* 170: h is passed by value *)
        | GDec x => next t (Some (GRead x)) (decr t s)
        | GRead x => match read_value t s with Some s => Next (go t None (used x (knows s t) s)) | None => Bad end
        | DRef => next t None (decr t s)                                                          (* 60 *)
        | ELock => acquire t ELoad s                                                              (* 128 *)
        | ELoad =>
            match ent s with
            | None => Next (go t (Some (Unlock false)) s)
            | Some _ =>
                match load t i s with
                | None => Bad
                | Some None => Stuck
                | Some (Some (v, s)) => Next (go t (Some (if (v =? 0)%Z then Erase else Unlock false)) s)
                end
            end
        | Erase => next t (Some (Unlock false)) (destroy t s)
        | OLock => acquire t OKey s
        | OKey => next t (Some (Unlock false)) (look t s)
        end
    end.
  (** [LSync t u]: the program orders what t did so far before what u does next *)
  Inductive label := LStart (t : tid) (o : op) | LStep (t : tid) (i : nat) (fails : bool) | LSync (t u : tid).
  Definition step (s : state) (l : label) : res :=
    match l with LStart t o => begin t o s | LStep t i b => step_thread t i b s | LSync t u => Next (learn u (knows s t) s) end.
  Fixpoint run (s : state) (ls : list label) : res :=
    match ls with
    | [] => Next s
    | l :: ls => match step s l with Next s' => run s' ls | Stuck => run s ls | Bad => Bad end
    end.
End machine.
