(** flyweight_core::init (H/detail/flyweight_core.hpp 153-163) run by several
    threads, access by access (H/ = /repo/include/boost/flyweight/).

    static_initializer, static_factory_ptr and static_mutex_ptr are plain
    objects; the local static in static_holder_class::get (static_holder.hpp
    31-35) is constructed by one thread while others wait, as the language
    guarantees.  After init() an operation reads the two pointers (265-269).
    Accesses are interleaved in any order (sequential consistency); that is
    enough to define data races, which are what makes other behaviour possible. *)
From Verif Require Export Prelude.

Notation tid := nat (only parsing).
Inductive loc := Flag | FPtr | MPtr.
Global Instance loc_eq : EqDecision loc.
Proof. solve_decision. Defined.

(** line 155 | 157 | 157 constructing | 158 | 159 | 160 reads the pointer |
    160 writes | 161 | operation reads the mutex pointer | the factory pointer; [n]: operations still to come *)
Inductive pc := P_test | P_get | P_build | P_fptr | P_mptr | P_check | P_flag | P_ret | P_mutex | P_factory.
Record thread := Thread { at_ : pc; left : nat }.
Inductive holder := H_raw | H_busy (t : tid) | H_alive.

Record state := State {
  flag : bool; fptr : bool; mptr : bool;        (* pointers: set to the one holder? *)
  hold : holder;
  built : nat;                                  (* ghost: constructions of the holder *)
  threads : gmap tid thread;
}.
Inductive res := Next (s : state) | Stuck | Undef.

(** next access of a thread to the plain objects: location, is it a write *)
Definition access (p : pc) : option (loc * bool) :=
  match p with
  | P_test => Some (Flag, false)
  | P_get | P_build => None
  | P_fptr => Some (FPtr, true)
  | P_mptr => Some (MPtr, true)
  | P_check => Some (FPtr, false)
  | P_flag => Some (Flag, true)
  | P_ret => Some (Flag, false)
  | P_mutex => Some (MPtr, false)
  | P_factory => Some (FPtr, false)
  end.

Definition goto (t : tid) (p : pc) (th : thread) (s : state) : state :=
  State (flag s) (fptr s) (mptr s) (hold s) (built s) (<[t:=Thread p (left th)]> (threads s)).

Definition step (s : state) (t : tid) : res :=
  match threads s !! t with
  | None => Stuck
  | Some th =>
      let go p := goto t p th in
      match at_ th with
      | P_test => Next (go (if flag s then P_mutex else P_get) s)                                                (* 155 *)
      | P_get =>                                                                                                  (* 157 *)
          match hold s with
          | H_raw => let s := go P_build s in Next (State (flag s) (fptr s) (mptr s) (H_busy t) (built s) (threads s))
          | H_busy _ => Stuck
          | H_alive => Next (go P_fptr s)
          end
      | P_build => let s := go P_fptr s in Next (State (flag s) (fptr s) (mptr s) H_alive (S (built s)) (threads s))
      | P_fptr => let s := go P_mptr s in Next (State (flag s) true (mptr s) (hold s) (built s) (threads s))      (* 158 *)
      | P_mptr => let s := go P_check s in Next (State (flag s) (fptr s) true (hold s) (built s) (threads s))     (* 159 *)
      | P_check => Next (go P_flag s)                                                                             (* 160 != 0 *)
      | P_flag => let s := go P_ret s in Next (State true (fptr s) (mptr s) (hold s) (built s) (threads s))       (* 160 *)
      | P_ret => Next (go P_mutex s)                                                                              (* 161 *)
      | P_mutex => if mptr s then Next (go P_factory s) else Undef                                                (* 265 mutex() *)
      | P_factory =>                                                                                              (* 269 factory() *)
          if fptr s then match left th with 0 => Stuck | S n => Next (goto t P_test (Thread (at_ th) n) s) end else Undef
      end
  end.
Fixpoint run (s : state) (ls : list tid) : res :=
  match ls with
  | [] => Next s
  | l :: ls => match step s l with Next s' => run s' ls | Stuck => run s ls | Undef => Undef end
  end.

(** threads about to perform [n] further operations each; [d]: init() has
    been completed before *)
Definition start (d : bool) (ns : list nat) : state :=
  State d d d (if d then H_alive else H_raw) (b2n d) (list_to_map (imap (λ t n, (t, Thread P_test n)) ns)).

(** two threads are about to access the same object, one of them writing *)
Definition race (s : state) : Prop := ∃ t u th uh x w w',
  t ≠ u ∧ threads s !! t = Some th ∧ threads s !! u = Some uh ∧
  access (at_ th) = Some (x, w) ∧ access (at_ uh) = Some (x, w') ∧ w || w' = true.
