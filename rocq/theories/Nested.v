(** Value constructors that create flyweights of their own type, with
    concurrent_factory: the constructor runs in a visitation of the container
    (H/concurrent_factory.hpp 150-163, called from H/detail/flyweight_core.hpp
    261-312; H/key_value.hpp 264-270; H/ = /repo/include/boost/flyweight/), so
    that the calling thread has exclusive access to the element while further
    elements are looked up or inserted.  [Recursive.v] has the same for the
    factories without visitation.

    The container is taken at its documentation: visiting gives exclusive
    access to the element and operations that need an element being visited
    wait.  [conf k k'] says that access to k excludes access to k'; it is
    equality for a container that locks single elements, and more for one that
    locks groups of them.  A value is handed to the program when its element is
    visited; counters are not modelled, the collector may take any element that
    is not being visited. *)
From Verif Require Export Prelude.

Notation tid := nat (only parsing).

Section machine.
  Context {K V : Type} `{Countable K}.

  (** what a constructor or a client does: create a flyweight and go on with
      its value, or without if the creation throws *)
  Inductive prog := PRet (v : V) | PThrow | PNew (k : K) (f : option V → prog).

  (** [lck]: simple_locking, a recursive mutex / no_locking *)
  Context (body : K → prog) (conf : K → K → bool) (lck : bool).

  (** [Some k]: the constructor of the value of k; [None]: the client *)
  Notation frame := (option K * prog)%type.
  Record state := State {
    ents : gmap K (option V);           (* None: value_cted is false *)
    busy : gmap K tid;                  (* elements being visited, and by whom *)
    thr : gmap tid (list frame);        (* innermost call first *)
    built : list K;                     (* completed constructions *)
    fin : list (prog * option V);       (* completed clients: what they ran and the result *)
    prg : gmap tid prog;                (* what each thread runs *)
  }.
  Definition init : state := State ∅ ∅ ∅ [] [] ∅.
  Inductive res := Next (s : state) | Stuck.
  Inductive label := LStart (t : tid) (p : prog) | LStep (t : tid) | LGc (k : K).

  (** the mutex is held by a thread that is in a constructor *)
  Definition inside (fs : list frame) : bool := match fs with _ :: _ :: _ => true | _ => false end.
  Definition excluded (t : tid) (s : state) : bool :=
    lck && bool_decide (map_Exists (λ u fs, u ≠ t ∧ inside fs = true) (thr s)).
  Definition waits (k : K) (s : state) : bool := bool_decide (map_Exists (λ k' _, conf k k' = true) (busy s)).

  Definition set_thr (t : tid) (fs : list frame) (s : state) : state :=
    State (ents s) (busy s) (<[t:=fs]> (thr s)) (built s) (fin s) (prg s).

  (** the result of a call arrives in the frame below *)
  Definition resume (r : option V) (fs : list frame) : list frame :=
    match fs with (o, PNew _ f) :: fs => (o, f r) :: fs | _ => fs end.

  Definition finish (t : tid) (r : option V) (s : state) : state :=
    State (ents s) (busy s) (delete t (thr s)) (built s) (match prg s !! t with Some p => (p, r) :: fin s | None => fin s end) (delete t (prg s)).

  Definition step_thread (t : tid) (s : state) : res :=
    match thr s !! t with
    | None | Some [] => Stuck
    | Some ((o, p) :: fs) =>
        match p with
        | PNew k f =>
            if excluded t s || waits k s then Stuck
            else match ents s !! k with
            | Some (Some v) => Next (set_thr t ((o, f (Some v)) :: fs) s)                        (* key_value.hpp 266 *)
            | _ => Next (State (<[k:=None]> (ents s)) (<[k:=t]> (busy s))
                     (<[t:=(Some k, body k) :: (o, PNew k f) :: fs]> (thr s)) (built s) (fin s) (prg s))
            end
        | PRet v =>
            match o with
            | Some k =>                                                                          (* 267-268 *)
                Next (State (<[k:=Some v]> (ents s)) (delete k (busy s)) (<[t:=resume (Some v) fs]> (thr s)) (k :: built s) (fin s) (prg s))
            | None => Next (finish t (Some v) s)
            end
        | PThrow =>
            match o with
            | Some k =>                                                                          (* concurrent_factory.hpp 155: the entry stays *)
                Next (State (ents s) (delete k (busy s)) (<[t:=resume None fs]> (thr s)) (built s) (fin s) (prg s))
            | None => Next (finish t None s)
            end
        end
    end.
  Definition step (s : state) (l : label) : res :=
    match l with
    | LStart t p =>
        match thr s !! t with
        | Some _ => Stuck
        | None => Next (State (ents s) (busy s) (<[t:=[(None, p)]]> (thr s)) (built s) (fin s) (<[t:=p]> (prg s)))
        end
    | LStep t => step_thread t s
    | LGc k =>                                                                                   (* concurrent_factory.hpp 128 *)
        if waits k s then Stuck else Next (State (delete k (ents s)) (busy s) (thr s) (built s) (fin s) (prg s))
    end.
  Fixpoint run (s : state) (ls : list label) : state :=
    match ls with
    | [] => s
    | l :: ls => run (match step s l with Next s' => s' | Stuck => s end) ls
    end.
End machine.
Global Arguments prog : clear implicits.
Global Arguments state K V {_ _}.
Global Arguments label : clear implicits.
Global Arguments res K V {_ _}.
