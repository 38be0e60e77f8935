(** Happens-before of the executions of [Concurrent.v] (concurrent_factory with
    no_tracking and no_locking): any number of keys, values that hold
    flyweights, all operations (cf. [Chb.v], which looks at one key, and
    [CoreHb.v]; H/ = /repo/include/boost/flyweight/).

    As in [CoreHb.v], accesses to memory are recorded as events together with
    what happens before them.  What a thread knows is passed on by the counters
    (H/concurrent_factory.hpp 40-53), by exclusive access to an element of the
    container (a visit happens before the next visit of the same element), by
    flyweight objects and by other means of the program.  The container itself
    is free of races, as documented.

    As in [Chb.v] the collector's load of a counter (47) may return any value
    the counter had that no write known to the collector has replaced; the
    collector acts on what it got, so that executions are not those of
    [Concurrent.v] alone.  The code uses sequentially consistent operations;
    [inc_sync]: increments acquire and release; [dec_rel], [dec_acq]:
    decrements do; [load_acq]: the load acquires. *)
From Verif Require Export CoreHb.
From Verif Require Export Concurrent.

(** [lk]: what has been released by the visits of an element; [hi]: the
    values of its counter, newest first: written by, value, released with it *)
Record chb := Chb { co : hb; lk : gmap addr events; hi : gmap addr (list (nat * Z * events)) }.
Definition cinit : chb := Chb hinit ∅ ∅.
Definition lset (d : chb) (h : addr) : events := default ∅ (lk d !! h).
Definition hist (d : chb) (h : addr) : list (nat * Z * events) := default [] (hi d !! h).
Definition on_co (f : hb → hb) (d : chb) : chb := Chb (f (co d)) (lk d) (hi d).

(** exclusive access to the element begins; ends *)
Definition enter (t : tid) (h : addr) (d : chb) : chb := on_co (learn t (lset d h)) d.
Definition leave (t : tid) (h : addr) (d : chb) : chb := Chb (co d) (<[h:=lset d h ∪ knows (co d) t]> (lk d)) (hi d).
(** its key or value is read, written *)
Definition see (t : tid) (h : addr) (k : kind) (d : chb) : chb := on_co (λ c, emit t [(MRep (idn c h), k)] c) d.
(** an atomic operation on its counter *)
Definition latest (d : chb) (h : addr) : Z := match hist d h with (_, v, _) :: _ => v | [] => 0 end.
Definition crmw (acq rls : bool) (z : Z) (t : tid) (h : addr) (d : chb) : chb :=
  let c := rmw acq rls t h (co d) in
  Chb c (lk d) (<[h:=(nxt (co d), (latest d h + z)%Z, cset c h) :: hist d h]> (hi d)).
(** it is created; destroyed *)
Definition ccreate (t : tid) (h : addr) (d : chb) : chb :=
  let i := nxt (co d) in
  let c := emit t [(MRep i, Write); (MRef i, Write)] (co d) in
  Chb (set_nd (<[h:=(i, ∅)]> (nd c)) c) (<[h:=∅]> (lk d)) (<[h:=[(i, 0%Z, ∅)]]> (hi d)).
Definition cdestroy (t : tid) (h : addr) (d : chb) : chb :=
  let i := idn (co d) h in
  let c := emit t [(MRep i, Write); (MRef i, Write)] (co d) in
  Chb (set_nd (delete h (nd c)) c) (delete h (lk d)) (delete h (hi d)).

Section ConHb.
  Context {K A R V : Type}.
  Context (P : Core.policy K A R V) (eqv : K → K → bool).
  Context (inc_sync dec_rel dec_acq load_acq : bool).
  Notation state := (state (K:=K) (A:=A) (R:=R)).
  Notation instr := (instr (K:=K) (A:=A) (R:=R)).

  (** H/concurrent_factory.hpp 48, 49 *)
  Definition cincr (t : tid) (h : addr) (d : chb) : chb := crmw inc_sync inc_sync 1 t h d.
  Definition cdecr (t : tid) (h : addr) (d : chb) : chb := crmw dec_acq dec_rel (-1) t h d.
  (** 47: the i-th newest value, unless a newer one is known *)
  Definition load (t : tid) (h : addr) (i : nat) (d : chb) : option (Z * chb) :=
    match hist d h !! i with
    | Some (_, v, C) =>
        if forallb (λ w, bool_decide (w.1.1 ∉ knows (co d) t)) (take i (hist d h))
        then Some (v, on_co (λ c, let c := emit t [(MRef (idn c h), Atomic)] c in if load_acq then learn t C c else c) d)
        else None
    | None => None
    end.

  (** a flyweight is used: it got its handle before; the use is over *)
  Definition use (t : tid) (x : var) (d : chb) : chb := on_co (λ c, learn t (made c x) c) d.
  Definition done_ (t : tid) (x : var) (d : chb) : chb := on_co (used t x) d.
  Definition own_ (t : tid) (x : var) (d : chb) : chb := on_co (fresh_ob t x) d.
  Definition all_uses (t : tid) (x : var) (d : chb) : chb := on_co (λ c, learn t (uses c x) c) d.
  Definition gone (x : var) (d : chb) : chb := on_co (λ c, set_ob (delete x (ob c)) c) d.
  Definition ccopy (t : tid) (y : var) (h : addr) (d : chb) : chb := done_ t y (cincr t h (use t y d)).

  (** [s] is the state before the step, cf. [Concurrent.exec]; [ITest] is
      [CLoad] below *)
  Definition cexec (s : state) (t : tid) (i : instr) (thr : bool) (d : chb) : chb :=
    match i with
    | IMake _ _ (y :: _) _ => match live s y with Some h => ccopy t y h d | None => d end
    | IMake _ _ [] _ => d
    | IEnter _ _ r =>
        if thr then d
        else match find P eqv s (p_key P r) with
             | Some h => see t h Read (enter t h d)
             | None => ccreate t (clock s) d
             end
    | IVisit _ h _ _ _ =>
        match ents s !! h with
        | Some n => match p_val P (n_rep n) with
                    | Some _ => see t h Read d
                    | None => if thr then leave t h (see t h Read d) else see t h Write d
                    end
        | None => d
        end
    | IAddRef _ h _ _ => cincr t h d
    | ILeave _ h _ _ | ISkip h => leave t h d
    | IRelease h | IDup h 0 => cdecr t h d
    | IBind x _ _ => own_ t x d
    | IAbort _ | ITest _ => d
    | IRead x h => done_ t x (see t h Read (use t x d))
    | ISwap1 _ _ _ h | ISwap2 _ _ h _ | IDup h (S _) => cincr t h d
    | ISwap3 x y _ _ => own_ t y (own_ t x d)
    | IErase h => cdestroy t h d
    end.
  Definition cstart (s : state) (t : tid) (o : op (A:=A)) (d : chb) : chb :=
    match o with
    | ONew _ _ _ => d
    | OCopy x y => match live s y with Some h => own_ t x (ccopy t y h d) | None => d end
    | OAssign x y => match live s y with Some h => own_ t x (ccopy t y h (all_uses t x d)) | None => d end
    | OSwap x y =>
        match live s x with
        | Some h => let d := ccopy t x h (all_uses t y (all_uses t x d)) in if decide (x = y) then d else gone y (gone x d)
        | None => d
        end
    | ODestroy x => gone x (all_uses t x d)
    | OGet x => match live s x with Some h => ccopy t x h d | None => d end
    end.
  (** get() of [x], then of one of the flyweights in its value, and so on
      (170: the handle is copied); all uses of [x] *)
  Fixpoint cwalk (s : state) (t : tid) (x : var) (h : addr) (path : list nat) (d : chb) : chb :=
    let d := done_ t x (see t h Read (done_ t x (cdecr t h (done_ t x (cincr t h d))))) in
    match path with
    | [] => d
    | j :: path => match ents s !! h with
                   | Some n => match p_kids P (n_rep n) !! j with Some h' => cwalk s t x h' path d | None => d end
                   | None => d
                   end
    end.

  (** [CLoad i]: the collector tests an element; [CProbe t h]: a search looks
      at the key of [h] on its way, with access to the element; [CSync t u]:
      the program orders what t did so far before what u does next *)
  Inductive clabel := CCon (l : label (A:=A)) | CLoad (i : nat) | CProbe (t : tid) (h : addr) | CSync (t u : tid) | CWalk (t : tid) (x : var) (path : list nat).
  Definition clab (s : state) (l : label) (d : chb) : chb :=
    match l with
    | LStart t o => cstart s t o d
    | LRun t thr => match stack s t with i :: _ => cexec s t i thr d | [] => d end
    | LLook h => enter gc_tid h d
    | LBegin | LEnd => d
    end.
  Definition tests (s : state) (l : label (A:=A)) : bool :=
    match l with LRun t _ => match stack s t with ITest _ :: _ => true | _ => false end | _ => false end.
  (** what is not enabled is skipped; [None]: undefined behaviour *)
  Definition cstep (sd : state * chb) (l : clabel) : option (state * chb) :=
    let '(s, d) := sd in
    match l with
    | CCon l =>
        if tests s l then Some (s, d)
        else match step P eqv s l with Next s' => Some (s', clab s l d) | Stuck => Some (s, d) | Undef => None end
    | CLoad i =>
        match stack s gc_tid with
        | ITest h :: rest =>
            match ents s !! h with
            | None => None
            | Some _ =>
                match load gc_tid h i d with
                | Some (v, d') => Some (set_stack gc_tid ((if decide (v = 0%Z) then IErase h else ISkip h) :: rest) s, d')
                | None => Some (s, d)
                end
            end
        | _ => Some (s, d)
        end
    | CProbe t h =>
        match stack s t, ents s !! h with
        | IEnter _ _ _ :: _, Some (Node _ _ None) => Some (s, leave t h (see t h Read (enter t h d)))
        | _, _ => Some (s, d)
        end
    | CSync t u => Some (s, on_co (λ c, learn u (knows c t) c) d)
    | CWalk t x path =>
        match stack s t, live s x with
        | [], Some h => Some (s, cwalk s t x h path (use t x d))
        | _, _ => Some (s, d)
        end
    end.
  Fixpoint crun (sd : state * chb) (ls : list clabel) : option (state * chb) :=
    match ls with
    | [] => Some sd
    | l :: ls => match cstep sd l with Some sd => crun sd ls | None => None end
    end.
End ConHb.
