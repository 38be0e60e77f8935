(** Happens-before of the executions of [Core.v]: every execution of that
    machine, with any number of keys and values that hold flyweights, together
    with the accesses to memory it makes and what orders them in the sense of
    the C++ memory model (cf. [Hb.v], which looks at one key).

    [hstep] does not check anything: it records accesses as events, and for
    each event what happens before it.  What a thread knows, i.e. what happens
    before its next step, grows with its own events and is passed on by the
    mutex (when it becomes free), by the atomic counters, by flyweight objects
    and by whatever else the program uses ([HSync]).  As in [Hb.v],
    [inc_sync]: increments acquire and release; [dec_rel], [dec_acq]:
    decrements do.  (H/ = /repo/include/boost/flyweight/.) *)
From Verif Require Export Core.

Notation events := (gset nat) (only parsing).

(** Entries are identified by the event that creates them.
    [MFac]: the container with its links; of an entry: [MRep], key and value;
    [MDel], del_ref; [MRef], the atomic counter (H/refcounted.hpp 102-106). *)
Inductive mloc := MFac | MRep (e : nat) | MDel (e : nat) | MRef (e : nat).
Inductive kind := Read | Write | Atomic.
Record acc := Acc { a_ev : nat; a_tid : tid; a_loc : mloc; a_kind : kind }.
Global Instance mloc_eq_dec : EqDecision mloc.
Proof. solve_decision. Defined.
Global Instance kind_eq_dec : EqDecision kind.
Proof. solve_decision. Defined.

Record hb := Hb {
  kn : gmap tid events;               (* what happens before the next step of a thread *)
  mset : events;                      (* what has been released to the mutex *)
  nd : gmap addr (nat * events);      (* per entry: its creation; what has been released to its counter *)
  ob : gmap var (events * events);    (* per flyweight object: what happens before it got its handle;
                                         what happened before the uses of it since *)
  past : gmap nat events;             (* what happens before an event *)
  tr : list acc;                      (* accesses, newest first *)
  nxt : nat;
}.
Definition hinit : hb := Hb ∅ ∅ ∅ ∅ ∅ [] 0.

Definition knows (c : hb) (t : tid) : events := default ∅ (kn c !! t).
Definition learn (t : tid) (E : events) (c : hb) : hb :=
  Hb (<[t:=knows c t ∪ E]> (kn c)) (mset c) (nd c) (ob c) (past c) (tr c) (nxt c).
Definition set_mset (E : events) (c : hb) : hb := Hb (kn c) E (nd c) (ob c) (past c) (tr c) (nxt c).
Definition set_nd (m : gmap addr (nat * events)) (c : hb) : hb := Hb (kn c) (mset c) m (ob c) (past c) (tr c) (nxt c).
Definition set_ob (m : gmap var (events * events)) (c : hb) : hb := Hb (kn c) (mset c) (nd c) m (past c) (tr c) (nxt c).
(** an event of [t] that consists of the given accesses *)
Definition emit (t : tid) (ls : list (mloc * kind)) (c : hb) : hb :=
  Hb (<[t:=knows c t ∪ {[nxt c]}]> (kn c)) (mset c) (nd c) (ob c) (<[nxt c:=knows c t]> (past c))
     (map (λ l, Acc (nxt c) t l.1 l.2) ls ++ tr c) (S (nxt c)).

(** the entry at [h] *)
Definition idn (c : hb) (h : addr) : nat := match nd c !! h with Some (i, _) => i | None => 0 end.
Definition cset (c : hb) (h : addr) : events := match nd c !! h with Some (_, E) => E | None => ∅ end.
(** released to the counter of [h] *)
Definition rel (h : addr) (E : events) (c : hb) : hb :=
  match nd c !! h with Some (i, E0) => set_nd (<[h:=(i, E0 ∪ E)]> (nd c)) c | None => c end.
(** an atomic operation on the counter of [h] that acquires, releases *)
Definition rmw (acq rls : bool) (t : tid) (h : addr) (c : hb) : hb :=
  let c := emit t [(MRef (idn c h), Atomic)] c in
  let c := if acq then learn t (cset c h) c else c in
  if rls then rel h (knows c t) c else c.
Definition destruction (i : nat) : list (mloc * kind) := [(MFac, Write); (MRep i, Write); (MDel i, Write); (MRef i, Write)].
(** the entry at [h] is created; destroyed *)
Definition create (t : tid) (h : addr) (c : hb) : hb :=
  let i := nxt c in
  let c := emit t [(MRep i, Write); (MDel i, Write); (MRef i, Write)] c in set_nd (<[h:=(i, ∅)]> (nd c)) c.
Definition destroy (t : tid) (h : addr) (c : hb) : hb :=
  let c := emit t (destruction (idn c h)) c in set_nd (delete h (nd c)) c.
(** a use of the object [x] begins: its handle has been got before; ends *)
Definition made (c : hb) (x : var) : events := match ob c !! x with Some (w, _) => w | None => ∅ end.
Definition uses (c : hb) (x : var) : events := match ob c !! x with Some (w, r) => w ∪ r | None => ∅ end.
Definition used (t : tid) (x : var) (c : hb) : hb :=
  match ob c !! x with Some (w, r) => set_ob (<[x:=(w, r ∪ knows c t)]> (ob c)) c | None => c end.
Definition fresh_ob (t : tid) (x : var) (c : hb) : hb := set_ob (<[x:=(knows c t, ∅)]> (ob c)) c.

Section CoreHb.
  Context {K A R V : Type}.
  Context (P : policy K A R V) (FS : factory K) (cfg : config).
  Context (inc_sync dec_rel dec_acq : bool).
  Notation state := (state (R:=R) (K:=K) (A:=A) FS).
  Notation instr := (instr (K:=K) (A:=A) (R:=R)).

  (** H/refcounted.hpp 96, 97 *)
  Definition incr (t : tid) (h : addr) (c : hb) : hb := if trk cfg then rmw inc_sync inc_sync t h c else c.
  Definition decr (t : tid) (h : addr) (c : hb) : hb := if trk cfg then rmw dec_acq dec_rel t h c else c.

  (** [s] is the state before the step, cf. [Core.exec]. *)
  Definition hexec (s : state) (t : tid) (i : instr) (ch : choice) (c : hb) : hb :=
    match i with
    | ILockFind _ _ _ | ILockCheck _ => if lck cfg then learn t (mset c) c else c
    | IFind _ _ r =>                                     (* the search may read the key of any entry *)
        let c1 := emit t ((MFac, Write) :: map (λ e, (MRep e.2.1, Read)) (map_to_list (nd c))) c in
        if c_throw ch then c1
        else match f_find FS (cont s) (kview P s) (p_key P r) with
             | NotFound => create t (c_addr ch) c1
             | _ => c1
             end
    | IVisit _ h _ _ _ =>
        match entry s h with
        | Some n => match p_val P (n_rep n) with
                    | Some _ => emit t [(MRep (idn c h), Read)] c
                    | None => if c_throw ch then destroy t h c else emit t [(MRep (idn c h), Write)] c
                    end
        | None => c
        end
    | IAddRef _ h _ _ => incr t h c
    | IAddDel _ h _ _ => emit t [(MDel (idn c h), Write)] c
    | IUnlock =>                                         (* what happened before is passed on when the mutex becomes free *)
        match lock s with Some (_, 1) => set_mset (mset c ∪ knows c t) c | _ => c end
    | IRelease h => decr t h c
    | ICheck h =>
        let c1 := emit t [(MDel (idn c h), Write)] c in
        match entry s h with
        | Some n => if decide (n_del n - 1 = 0)%Z then destroy t h c1 else c1
        | None => c1
        end
    | IFree _ | IAbort _ => c
    | IBind x _ _ => fresh_ob t x c
    end.

  Definition hcopy (s : state) (t : tid) (y : var) (c : hb) : hb :=
    match live s y with Some h => used t y (incr t h (learn t (made c y) c)) | None => c end.
  (** the key or value of [h] is read through [x] *)
  Definition touch (t : tid) (x : var) (h : addr) (c : hb) : hb := used t x (emit t [(MRep (idn c h), Read)] c).
  (** a flyweight inside the value of [x] is copied: get() of every level above
      it, then its handle is copied; all uses of [x] *)
  Fixpoint hinner (s : state) (t : tid) (x : var) (h : addr) (path : list nat) (c : hb) : hb :=
    match path with
    | [] => used t x (incr t h c)
    | j :: path =>
        let c := touch t x h c in
        match entry s h with
        | Some n => match p_kids P (n_rep n) !! j with Some h' => hinner s t x h' path c | None => c end
        | None => c
        end
    end.
  Definition hstart (s : state) (t : tid) (o : op (A:=A)) (c : hb) : hb :=
    match o with
    | ONew _ _ ys => foldl (λ c y, hcopy s t y c) c ys
    | OCopy x y => fresh_ob t x (hcopy s t y c)
    | OAssign x y => fresh_ob t x (hcopy s t y (learn t (uses c x) c))
    | OSwap x y => fresh_ob t y (fresh_ob t x (learn t (uses c x ∪ uses c y) c))
    | ODestroy x => let c := learn t (uses c x) c in set_ob (delete x (ob c)) c
    | OGet x => match live s x with
                | Some h => touch t x h (learn t (made c x) c)
                | None => c
                end
    | OInner x y path => match live s y with
                         | Some h => fresh_ob t x (hinner s t y h path (learn t (made c y) c))
                         | None => c
                         end
    end.
  (** get() of [x], then of one of the flyweights in its value, and so on; all
      uses of [x] *)
  Fixpoint walk (s : state) (t : tid) (x : var) (h : addr) (path : list nat) (c : hb) : hb :=
    let c := touch t x h c in
    match path with
    | [] => c
    | j :: path => match entry s h with
                   | Some n => match p_kids P (n_rep n) !! j with Some h' => walk s t x h' path c | None => c end
                   | None => c
                   end
    end.

  Inductive hlabel := HCore (l : label (A:=A)) | HSync (t u : tid) | HWalk (t : tid) (x : var) (path : list nat).
  Definition hlabel_tid (l : hlabel) : tid := match l with HCore l => label_tid l | HSync _ u => u | HWalk t _ _ => t end.
  Definition hlab (s : state) (l : label) (c : hb) : hb :=
    match l with
    | LStart t o => hstart s t o c
    | LRun t ch => match stack s t with i :: _ => hexec s t i ch c | [] => c end
    end.
  (** what is not enabled is skipped, as in [Core.run] *)
  Definition hstep (sc : state * hb) (l : hlabel) : option (state * hb) :=
    let '(s, c) := sc in
    match l with
    | HCore l => match step P FS cfg s l with Next s' => Some (s', hlab s l c) | Stuck => Some (s, c) | Undef => None end
    | HSync t u => Some (s, learn u (knows c t) c)
    | HWalk t x path =>
        match stack s t, live s x with
        | [], Some h => Some (s, walk s t x h path (learn t (made c x) c))
        | _, _ => Some (s, c)
        end
    end.
  Fixpoint hrun (sc : state * hb) (ls : list hlabel) : option (state * hb) :=
    match ls with
    | [] => Some sc
    | l :: ls => match hstep sc l with Some sc => hrun sc ls | None => None end
    end.
End CoreHb.

(** ** What is to be shown: conflicting accesses are ordered *)
Definition before (c : hb) (e e' : nat) : Prop := ∃ D, past c !! e' = Some D ∧ e ∈ D.
Definition conflict (a b : acc) : Prop :=
  a_loc a = a_loc b ∧ ¬ (a_kind a = Read ∧ a_kind b = Read) ∧ ¬ (a_kind a = Atomic ∧ a_kind b = Atomic).
Definition race_free (c : hb) : Prop :=
  ∀ a b, a ∈ tr c → b ∈ tr c → conflict a b → a_ev a ≠ a_ev b → before c (a_ev a) (a_ev b) ∨ before c (a_ev b) (a_ev a).
