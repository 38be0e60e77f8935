(** The flyweight core as a machine over arbitrary thread schedules.
    (H/ = /repo/include/boost/flyweight/.)

    Threads are stacks of micro-instructions; each micro-instruction is one
    access to shared state (one atomic counter operation, one lock operation,
    one container operation under the lock).  The scheduler interleaves them
    arbitrarily.  Undefined behaviour is the outcome [Undef].  *)
From Verif Require Export Prelude Factory.

Notation var := nat (only parsing).
Notation tid := nat (only parsing).

(** ** Configuration: which tracking / locking policy is selected.
    [trk = true]: H/refcounted.hpp; [trk = false]: H/no_tracking.hpp.
    [lck = true]: H/simple_locking.hpp; [lck = false]: H/no_locking.hpp. *)
Record config := Config { trk : bool; lck : bool }.

(** ** Value policies (H/detail/default_value_policy.hpp 30-76,
    H/key_value.hpp 50-295), as pure functions on rep states.  [K] keys, [A]
    constructor arguments, [R] rep states, [V] values. [p_make args kids] is
    the rep constructor ([None]: it threw); [kids] are the flyweights of the
    same type copied into the new object.  [p_build args r] is
    [{key,copy,move}_construct_value]; [p_kids r] are the flyweights stored in
    the rep. *)
Record policy (K A R V : Type) := Policy {
  p_make : A → list addr → option R;
  p_key : R → K;
  p_val : R → option V;
  p_build : A → R → R;
  p_kids : R → list addr;
}.
Global Arguments p_make {_ _ _ _} _ _ _.
Global Arguments p_key {_ _ _ _} _ _.
Global Arguments p_val {_ _ _ _} _ _.
Global Arguments p_build {_ _ _ _} _ _ _.
Global Arguments p_kids {_ _ _ _} _ _.

Section Core.
  Context {K A R V : Type}.
  Context (P : policy K A R V) (FS : factory K) (cfg : config).

  (** An entry: refcounted_value<rep_type,key_type> (H/refcounted.hpp 53-106)
      or the bare rep with no_tracking.  [n_linked = false]: its destructor
      has started (it has left the container).  [n_stamp] is ghost: creation
      time. *)
  Record node := Node {
    n_rep : R;
    n_ref : Z;
    n_del : Z;
    n_linked : bool;
    n_stamp : nat;
  }.

  (** Micro-instructions.  Ghost argument [k]: the key asked for. *)
  Inductive instr :=
  | ILockFind (x : var) (p : A) (r : R)          (* flyweight_core.hpp 264-265: e built, waiting for the lock *)
  | IFind (x : var) (p : A) (r : R)              (* 107: fac.insert(e), lock held *)
  | IVisit (x : var) (h : addr) (p : A) (ks : list addr) (k : K)  (* 109: f(fac.entry(h)); ks: flyweights still in e *)
  | IAddRef (x : var) (h : addr) (ks : list addr) (k : K)         (* refcounted.hpp 114: add_ref()==1 ? *)
  | IAddDel (x : var) (h : addr) (ks : list addr) (k : K)         (* refcounted.hpp 115: add_deleter() *)
  | IUnlock                                      (* end of scope of lock *)
  | IRelease (h : addr)                          (* refcounted.hpp 132: ~refcounted_handle, release() *)
  | ILockCheck (h : addr)                        (* flyweight_core.hpp 72: waiting for the lock in erase *)
  | ICheck (h : addr)                            (* flyweight_core.hpp 73: if(chk(h)) factory().erase(h) *)
  | IFree (h : addr)                             (* node deallocation at the end of container erase *)
  | IBind (x : var) (h : addr) (k : K)           (* flyweight.hpp 196: h(core::insert(..)) finished *)
  | IAbort (x : var).                            (* exception leaves the flyweight constructor *)

  (** Ghost log of completed API operations and entry life-cycle events. *)
  Inductive event :=
  | EvNew (x : var) (k : K)
  | EvThrow (x : var)
  | EvCopy (x y : var)
  | EvAssign (x y : var)
  | EvSwap (x y : var)
  | EvDestroy (x : var)
  | EvGet (x : var) (h : addr) (r : R)
  | EvBuild (h : addr) (k : K)
  | EvErase (h : addr) (k : K).

  Record state := State {
    heap : gmap addr node;
    cont : f_cont FS;
    vars : gmap var (option addr);     (* [Some None]: under construction *)
    lock : option (tid * nat);
    stacks : gmap tid (list instr);
    clock : nat;                       (* ghost *)
    log : list event;                  (* ghost, newest first *)
  }.

  Definition init : state := State ∅ (f_empty FS) ∅ None ∅ 0 [].

  Inductive res := Next (s : state) | Stuck | Undef.

  Definition stack (s : state) (t : tid) : list instr := default [] (stacks s !! t).

  Definition set_heap h (s : state) := State h (cont s) (vars s) (lock s) (stacks s) (clock s) (log s).
  Definition set_cont c (s : state) := State (heap s) c (vars s) (lock s) (stacks s) (clock s) (log s).
  Definition set_vars v (s : state) := State (heap s) (cont s) v (lock s) (stacks s) (clock s) (log s).
  Definition set_lock l (s : state) := State (heap s) (cont s) (vars s) l (stacks s) (clock s) (log s).
  Definition set_stack t k (s : state) :=
    State (heap s) (cont s) (vars s) (lock s) (<[t:=k]> (stacks s)) (clock s) (log s).
  Definition set_clock c (s : state) := State (heap s) (cont s) (vars s) (lock s) (stacks s) c (log s).
  Definition add_log e (s : state) :=
    State (heap s) (cont s) (vars s) (lock s) (stacks s) (clock s) (e :: log s).

  (** Access to an entry through a handle: factory().entry(h) dereferences
      the address (hashed_factory.hpp 76-79, assoc_container_factory.hpp 76);
      an entry that is destroyed or being destroyed must not be accessed. *)
  Definition entry (s : state) (h : addr) : option node :=
    match heap s !! h with
    | Some n => if n_linked n then Some n else None
    | None => None
    end.
  Definition put (h : addr) (n : node) (s : state) : state := set_heap (<[h:=n]> (heap s)) s.

  (** key view of memory for the container *)
  Definition kview (s : state) (a : addr) : option K :=
    match entry s a with Some n => Some (p_key P (n_rep n)) | None => None end.

  (** refcounted.hpp 96-100 *)
  Definition with_ref n z := Node (n_rep n) z (n_del n) (n_linked n) (n_stamp n).
  Definition with_del n z := Node (n_rep n) (n_ref n) z (n_linked n) (n_stamp n).
  Definition with_rep n r := Node r (n_ref n) (n_del n) (n_linked n) (n_stamp n).
  Definition unlinked n := Node (n_rep n) (n_ref n) (n_del n) false (n_stamp n).

  (** refcounted.hpp 119-122 (copy ctor: add_ref) / no_tracking.hpp: plain
      pointer copy.  [None]: access to a dead entry. *)
  Definition copy_handle (s : state) (h : addr) : option state :=
    if trk cfg then
      match entry s h with
      | Some n => Some (put h (with_ref n (n_ref n + 1)) s)
      | None => None
      end
    else Some s.

  Fixpoint copy_handles (s : state) (hs : list addr) : option state :=
    match hs with
    | [] => Some s
    | h :: hs => match copy_handle s h with Some s' => copy_handles s' hs | None => None end
    end.

  (** recursive_lw_mutex.hpp 37-106 (scoped_lock ctor/dtor);
      no_locking.hpp 26-30 (nothing happens). *)
  Definition acquire (s : state) (t : tid) : option state :=
    if lck cfg then
      match lock s with
      | None => Some (set_lock (Some (t, 1)) s)
      | Some (t', n) => if decide (t = t') then Some (set_lock (Some (t, S n)) s) else None
      end
    else Some s.
  Definition unlock (s : state) (t : tid) : option state :=
    if lck cfg then
      match lock s with
      | Some (t', S n) =>
          if decide (t = t') then Some (set_lock (if decide (n = 0) then None else Some (t, n)) s)
          else None
      | _ => None
      end
    else Some s.

  (** End of insert_rep / insert_value (flyweight_core.hpp 264-269, 279-284,
      295-299, 305-310): the lock is released, then the temporary entry [e] is
      destroyed, then the constructor of [x] finishes. *)
  Definition finish (x : var) (h : addr) (ks : list addr) (k : K) : list instr :=
    IUnlock :: map IRelease ks ++ [IBind x h k].
  (** same scopes left by an exception *)
  Definition unwind (x : var) (ks : list addr) : list instr :=
    IUnlock :: map IRelease ks ++ [IAbort x].

  (** container erase: unlink the node, destroy the entry (and with it the
      flyweights it holds), deallocate. *)
  Definition erase (s : state) (h : addr) (n : node) : state * list instr :=
    (add_log (EvErase h (p_key P (n_rep n)))
       (set_cont (f_unlink FS (cont s) (kview s) h) (put h (unlinked n) s)),
     map IRelease (p_kids P (n_rep n)) ++ [IFree h]).

  Record choice := Choice { c_addr : addr; c_throw : bool }.

  (** One micro-instruction [i] of thread [t], [rest] being the rest of its
      stack. *)
  Definition exec (s : state) (t : tid) (i : instr) (rest : list instr) (c : choice) : res :=
    match i with
    | ILockFind x p r =>
        match acquire s t with
        | Some s1 => Next (set_stack t (IFind x p r :: rest) s1)
        | None => Stuck
        end
    | IFind x p r =>
        if c_throw c then                                   (* hash/pred/allocation throws *)
          Next (set_stack t (unwind x (p_kids P r) ++ rest) s)
        else
          match f_find FS (cont s) (kview s) (p_key P r) with
          | Found h => Next (set_stack t (IVisit x h p (p_kids P r) (p_key P r) :: rest) (set_cont (f_hit FS (cont s) h) s))
          | NotFound =>
              let a := c_addr c in
              match heap s !! a with
              | Some _ => Stuck                             (* allocator returns fresh storage *)
              | None =>
                  let s1 := put a (Node r 0 0 true (clock s)) s in
                  let s2 := set_clock (S (clock s)) (set_cont (f_link FS (cont s) (kview s1) a) s1) in
                  Next (set_stack t (IVisit x a p [] (p_key P r) :: rest) s2)
              end
          | BadRead => Undef
          end
    | IVisit x h p ks k =>
        match entry s h with
        | None => Undef
        | Some n =>
            match p_val P (n_rep n) with
            | Some _ => Next (set_stack t (IAddRef x h ks k :: rest) s)
            | None =>
                if c_throw c then
                  let (s1, is) := erase s h n in
                  Next (set_stack t (is ++ unwind x ks ++ rest) s1)
                else
                  Next (add_log (EvBuild h k)
                         (set_stack t (IAddRef x h ks k :: rest)
                            (put h (with_rep n (p_build P p (n_rep n))) s)))
            end
        end
    | IAddRef x h ks k =>
        if trk cfg then
          match entry s h with
          | None => Undef
          | Some n =>
              let r := (n_ref n + 1)%Z in
              let s1 := put h (with_ref n r) s in
              if decide (r = 1%Z) then Next (set_stack t (IAddDel x h ks k :: rest) s1)
              else Next (set_stack t (finish x h ks k ++ rest) s1)
          end
        else Next (set_stack t (finish x h ks k ++ rest) s)
    | IAddDel x h ks k =>
        match entry s h with
        | None => Undef
        | Some n =>
            Next (set_stack t (finish x h ks k ++ rest) (put h (with_del n (n_del n + 1)) s))
        end
    | IUnlock =>
        match unlock s t with
        | Some s1 => Next (set_stack t rest s1)
        | None => Undef
        end
    | IRelease h =>
        if trk cfg then
          match entry s h with
          | None => Undef
          | Some n =>
              let r := (n_ref n - 1)%Z in
              let s1 := put h (with_ref n r) s in
              if decide (r = 0%Z) then Next (set_stack t (ILockCheck h :: rest) s1)
              else Next (set_stack t rest s1)
          end
        else Next (set_stack t rest s)
    | ILockCheck h =>
        match acquire s t with
        | Some s1 => Next (set_stack t (ICheck h :: rest) s1)
        | None => Stuck
        end
    | ICheck h =>
        match entry s h with
        | None => Undef
        | Some n =>
            let d := (n_del n - 1)%Z in
            let n1 := with_del n d in
            if decide (d = 0%Z) then
              let (s1, is) := erase s h n1 in
              Next (set_stack t (is ++ IUnlock :: rest) s1)
            else Next (set_stack t (IUnlock :: rest) (put h n1 s))
        end
    | IFree h =>
        match heap s !! h with
        | Some n => if n_linked n then Undef
                    else Next (set_stack t rest (set_heap (delete h (heap s)) s))
        | None => Undef
        end
    | IBind x h k =>
        Next (add_log (EvNew x k) (set_stack t rest (set_vars (<[x:=Some h]> (vars s)) s)))
    | IAbort x =>
        Next (add_log (EvThrow x) (set_stack t rest (set_vars (delete x (vars s)) s)))
    end.

  (** API calls.  [ONew x p ys]: construct flyweight [x] from arguments [p]
      and copies of flyweights [ys]; [OCopy x y]: x(y) or x(std::move(y));
      [OAssign x y]: x=y; [OInner x y path]: x is a copy of a flyweight found
      inside the value of y, x(y.get().child), one child index per level. *)
  Inductive op :=
  | ONew (x : var) (p : A) (ys : list var)
  | OCopy (x y : var)
  | OAssign (x y : var)
  | OSwap (x y : var)
  | ODestroy (x : var)
  | OGet (x : var)
  | OInner (x y : var) (path : list nat).

  Definition live (s : state) (x : var) : option addr :=
    match vars s !! x with Some (Some h) => Some h | _ => None end.

  (** The handle reached from [h] through the flyweights inside values
      (example/composite.cpp 37-46: a list_elems whose elements are
      flyweights): get() of each level in turn (flyweight_core.hpp 186-194).
      [None]: undefined behaviour; [Some None]: there is no such child. *)
  Fixpoint inner (s : state) (h : addr) (path : list nat) : option (option addr) :=
    match path with
    | [] => Some (Some h)
    | j :: path =>
        match entry s h with
        | None => None
        | Some n =>
            match p_val P (n_rep n) with
            | None => None                            (* BOOST_ASSERT(value_cted) *)
            | Some _ => match p_kids P (n_rep n) !! j with Some h' => inner s h' path | None => Some None end
            end
        end
    end.

  Definition of_opt (o : option state) : res :=
    match o with Some s => Next s | None => Undef end.

  (** Starting an API call in thread [t].  [Stuck] when the call is not a
      legal use of the objects involved (e.g. reading a flyweight that does
      not exist or is still being constructed by another thread). *)
  Definition start (s : state) (t : tid) (o : op) : res :=
    match o with
    | ONew x p ys =>                                  (* flyweight.hpp 193-210 *)
        match vars s !! x, mapM (live s) ys with
        | None, Some ks =>
            match copy_handles s ks with
            | None => Undef
            | Some s1 =>
                let s2 := set_vars (<[x:=None]> (vars s1)) s1 in
                match p_make P p ks with
                | Some r => Next (set_stack t [ILockFind x p r] s2)
                | None => Next (set_stack t (map IRelease ks ++ [IAbort x]) s2)
                end
            end
        | _, _ => Stuck
        end
    | OCopy x y =>                                    (* flyweight.hpp 213-219 *)
        match vars s !! x, live s y with
        | None, Some h =>
            match copy_handle s h with
            | None => Undef
            | Some s1 => Next (add_log (EvCopy x y) (set_vars (<[x:=Some h]> (vars s1)) s1))
            end
        | _, _ => Stuck
        end
    | OAssign x y =>                                  (* flyweight.hpp 231, refcounted.hpp 124-128 *)
        match live s x, live s y with
        | Some hx, Some hy =>
            match copy_handle s hy with
            | None => Undef
            | Some s1 =>
                Next (add_log (EvAssign x y)
                       (set_stack t [IRelease hx] (set_vars (<[x:=Some hy]> (vars s1)) s1)))
            end
        | _, _ => Stuck
        end
    | OSwap x y =>                                    (* flyweight.hpp 278, refcounted.hpp 139-142 *)
        match live s x, live s y with
        | Some hx, Some hy =>
            Next (add_log (EvSwap x y) (set_vars (<[y:=Some hx]> (<[x:=Some hy]> (vars s))) s))
        | _, _ => Stuck
        end
    | ODestroy x =>
        match live s x with
        | Some h => Next (add_log (EvDestroy x)
                           (set_stack t [IRelease h] (set_vars (delete x (vars s)) s)))
        | None => Stuck
        end
    | OGet x =>                                       (* flyweight.hpp 249, flyweight_core.hpp 186-194 *)
        match live s x with
        | Some h =>
            match entry s h with
            | None => Undef
            | Some n =>
                match p_val P (n_rep n) with
                | None => Undef                       (* BOOST_ASSERT(value_cted) *)
                | Some _ => Next (add_log (EvGet x h (n_rep n)) s)
                end
            end
        | None => Stuck
        end
    | OInner x y path =>                              (* flyweight.hpp 213-219 from inside a value *)
        match vars s !! x, live s y with
        | None, Some h =>
            match inner s h path with
            | None => Undef
            | Some None => Stuck
            | Some (Some h') =>
                match entry s h', copy_handle s h' with
                | Some n, Some s1 => Next (add_log (EvNew x (p_key P (n_rep n))) (set_vars (<[x:=Some h']> (vars s1)) s1))
                | _, _ => Undef
                end
            end
        | _, _ => Stuck
        end
    end.

  (** Schedules *)
  Inductive label := LStart (t : tid) (o : op) | LRun (t : tid) (c : choice).
  Definition label_tid (l : label) : tid := match l with LStart t _ => t | LRun t _ => t end.

  Definition step (s : state) (l : label) : res :=
    match l with
    | LStart t o => match stack s t with [] => start s t o | _ => Stuck end
    | LRun t c => match stack s t with i :: rest => exec s t i rest c | [] => Stuck end
    end.

  (** A schedule: labels that are not enabled are skipped. *)
  Fixpoint run (s : state) (ls : list label) : res :=
    match ls with
    | [] => Next s
    | l :: ls =>
        match step s l with
        | Next s' => run s' ls
        | Stuck => run s ls
        | Undef => Undef
        end
    end.
End Core.

Global Arguments heap {_ _ _ _} _.
Global Arguments cont {_ _ _ _} _.
Global Arguments vars {_ _ _ _} _.
Global Arguments lock {_ _ _ _} _.
Global Arguments stacks {_ _ _ _} _.
Global Arguments clock {_ _ _ _} _.
Global Arguments log {_ _ _ _} _.
Global Arguments stack {_ _ _ _} _ _.
Global Arguments entry {_ _ _ _} _ _.
Global Arguments kview {_ _ _ _} _ {_} _ _.
Global Arguments live {_ _ _ _} _ _.
Global Arguments set_heap {_ _ _ _} _ _.
Global Arguments set_cont {_ _ _ _} _ _.
Global Arguments set_vars {_ _ _ _} _ _.
Global Arguments set_lock {_ _ _ _} _ _.
Global Arguments set_stack {_ _ _ _} _ _ _.
Global Arguments set_clock {_ _ _ _} _ _.
Global Arguments add_log {_ _ _ _} _ _.
Global Arguments put {_ _ _ _} _ _ _.
Global Arguments Next {_ _ _ _} _.
Global Arguments Stuck {_ _ _ _}.
Global Arguments Undef {_ _ _ _}.
