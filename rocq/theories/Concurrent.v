(** concurrent_factory with no_tracking and no_locking as a machine over
    arbitrary thread schedules (H/ = /repo/include/boost/flyweight/):
    H/concurrent_factory.hpp 40-178, H/detail/flyweight_core.hpp 261-311,
    H/flyweight.hpp 193-278.

    Threads are stacks of micro-instructions, each one access to shared state.
    Thread [gc_tid] is the garbage collector (116-131).  The container is
    boost::concurrent_node_set, which is not part of the library: it is
    taken at its documentation, i.e. insert_and_visit finds or inserts and
    then visits with exclusive access to the element, and erase_if examines,
    and if so told erases, every element that is there from beginning to end,
    each with exclusive access.  Exclusive access is per element here; the
    container excludes more.  Addresses are never reused here, so that every
    access to an erased entry is seen as such. *)
From Verif Require Export Prelude Factory.
From Verif Require Core CoreInv CoreSpec.

Notation var := nat (only parsing).
Notation tid := nat (only parsing).
Notation EvNew := Core.EvNew.
Notation EvThrow := Core.EvThrow.
Notation EvCopy := Core.EvCopy.
Notation EvAssign := Core.EvAssign.
Notation EvSwap := Core.EvSwap.
Notation EvDestroy := Core.EvDestroy.
Notation EvGet := Core.EvGet.
Notation EvBuild := Core.EvBuild.
Notation EvErase := Core.EvErase.
Notation p_make := Core.p_make.
Notation p_key := Core.p_key.
Notation p_val := Core.p_val.
Notation p_build := Core.p_build.
Notation p_kids := Core.p_kids.

Definition gc_tid : tid := 0.

Section Concurrent.
  Context {K A R V : Type}.
  Context (P : Core.policy K A R V) (eqv : K → K → bool).
  Notation event := (Core.event (K:=K) (R:=R)).

  (** refcounted_entry, 40-53; [n_own]: who has exclusive access *)
  Record node := Node { n_rep : R; n_cnt : Z; n_own : option tid }.

  (** Ghost argument [k]: the key asked for. *)
  Inductive instr :=
  | IMake (x : var) (p : A) (ys : list var) (got : list addr)     (* the rep is being built; [ys] still to be copied into it *)
  | IEnter (x : var) (p : A) (r : R)                              (* 161: cont.insert_and_visit *)
  | IVisit (x : var) (h : addr) (p : A) (ks : list addr) (k : K)  (* 156: f(static_cast<const Entry&>(x)); ks: flyweights still in e *)
  | IAddRef (x : var) (h : addr) (ks : list addr) (k : K)         (* 157 *)
  | ILeave (x : var) (h : addr) (ks : list addr) (k : K)          (* 158-162: p is set, access is given up *)
  | IRelease (h : addr)                                           (* 60: ~refcounted_handle *)
  | IBind (x : var) (h : addr) (k : K)                            (* the flyweight constructor finishes *)
  | IAbort (x : var)                                              (* an exception leaves it *)
  | IRead (x : var) (h : addr)                                    (* use of the reference got from get() *)
  | ISwap1 (x y : var) (hx hy : addr)                             (* std::swap: x.h=std::move(y.h), 59-66 *)
  | ISwap2 (x y : var) (hx hy : addr)                             (* std::swap: y.h=std::move(tmp) *)
  | ISwap3 (x y : var) (hx hy : addr)                             (* std::swap done *)
  | IDup (h : addr) (j : nat)                                     (* std::swap(x,x): [j] assignments left; tmp *)
  | ITest (h : addr)                                              (* 128: !x.count() *)
  | IErase (h : addr)                                             (* 128: it was 0 *)
  | ISkip (h : addr).                                             (* 128: it was not *)

  Record state := State {
    ents : gmap addr node;             (* cont *)
    vars : gmap var (option addr);     (* [Some None]: under construction, or being swapped *)
    stacks : gmap tid (list instr);
    todo : option (gset addr);         (* elements erase_if still has to examine; None: asleep *)
    clock : nat;                       (* next address *)
    log : list event;                  (* ghost, newest first *)
  }.
  Definition init : state := State ∅ ∅ ∅ None 0 [].

  Inductive res := Next (s : state) | Stuck | Undef.
  Definition stack (s : state) (t : tid) : list instr := default [] (stacks s !! t).
  Definition set_ents E (s : state) := State E (vars s) (stacks s) (todo s) (clock s) (log s).
  Definition set_vars v (s : state) := State (ents s) v (stacks s) (todo s) (clock s) (log s).
  Definition set_stack t l (s : state) := State (ents s) (vars s) (<[t:=l]> (stacks s)) (todo s) (clock s) (log s).
  Definition set_todo d (s : state) := State (ents s) (vars s) (stacks s) d (clock s) (log s).
  Definition set_clock c (s : state) := State (ents s) (vars s) (stacks s) (todo s) c (log s).
  Definition add_log e (s : state) := State (ents s) (vars s) (stacks s) (todo s) (clock s) (e :: log s).
  Definition put (h : addr) (n : node) (s : state) : state := set_ents (<[h:=n]> (ents s)) s.
  Definition with_cnt n z := Node (n_rep n) z (n_own n).
  Definition with_own n o := Node (n_rep n) (n_cnt n) o.
  Definition with_rep n r := Node r (n_cnt n) (n_own n).

  (** 48: ++ref, 49: --ref *)
  Definition add_ref (h : addr) (s : state) : option state :=
    match ents s !! h with Some n => Some (put h (with_cnt n (n_cnt n + 1)) s) | None => None end.
  Definition release (h : addr) (s : state) : option state :=
    match ents s !! h with Some n => Some (put h (with_cnt n (n_cnt n - 1)) s) | None => None end.

  Definition find (s : state) (k : K) : option addr :=
    match filter (λ p : addr * node, eqv (p_key P (n_rep p.2)) k = true) (map_to_list (ents s)) with
    | [] => None
    | p :: _ => Some p.1
    end.

  Definition live (s : state) (x : var) : option addr :=
    match vars s !! x with Some (Some h) => Some h | _ => None end.

  Definition exec (s : state) (t : tid) (i : instr) (rest : list instr) (thr : bool) : res :=
    match i with
    | IMake x p (y :: ys) got =>
        match live s y with
        | None => Stuck                                     (* y is not there: not a legal program *)
        | Some h => match add_ref h s with
                    | Some s1 => Next (set_stack t (IMake x p ys (got ++ [h]) :: rest) s1)
                    | None => Undef
                    end
        end
    | IMake x p [] got =>
        match p_make P p got with
        | Some r => Next (set_stack t (IEnter x p r :: rest) s)
        | None => Next (set_stack t (map IRelease got ++ IAbort x :: rest) s)
        end
    | IEnter x p r =>
        if thr then                                         (* hash/pred/allocation throws *)
          Next (set_stack t (map IRelease (p_kids P r) ++ IAbort x :: rest) s)
        else
          match find s (p_key P r) with
          | Some h =>
              match ents s !! h with
              | Some (Node r' c None) => Next (set_stack t (IVisit x h p (p_kids P r) (p_key P r) :: rest) (put h (Node r' c (Some t)) s))
              | _ => Stuck                                  (* wait for access *)
              end
          | None =>
              (* the new element gets the contents of e *)
              Next (set_clock (S (clock s))
                     (set_stack t (IVisit x (clock s) p [] (p_key P r) :: rest) (put (clock s) (Node r 0 (Some t)) s)))
          end
    | IVisit x h p ks k =>
        match ents s !! h with
        | None => Undef
        | Some n =>
            match p_val P (n_rep n) with
            | Some _ => Next (set_stack t (IAddRef x h ks k :: rest) s)
            | None =>
                if thr then                                 (* leaves the lambda and insert_and_visit *)
                  Next (set_stack t (map IRelease ks ++ IAbort x :: rest) (put h (with_own n None) s))
                else
                  Next (add_log (EvBuild h k)
                         (set_stack t (IAddRef x h ks k :: rest) (put h (with_rep n (p_build P p (n_rep n))) s)))
            end
        end
    | IAddRef x h ks k =>
        match add_ref h s with
        | Some s1 => Next (set_stack t (ILeave x h ks k :: rest) s1)
        | None => Undef
        end
    | ILeave x h ks k =>
        match ents s !! h with
        | None => Undef
        | Some n => Next (set_stack t (map IRelease ks ++ IBind x h k :: rest) (put h (with_own n None) s))
        end
    | IRelease h => match release h s with Some s1 => Next (set_stack t rest s1) | None => Undef end
    | IBind x h k => Next (add_log (EvNew x k) (set_stack t rest (set_vars (<[x:=Some h]> (vars s)) s)))
    | IAbort x => Next (add_log (EvThrow x) (set_stack t rest (set_vars (delete x (vars s)) s)))
    | IRead x h =>
        if decide (live s x = Some h) then
          match ents s !! h with
          | Some n => match p_val P (n_rep n) with
                      | Some _ => Next (add_log (EvGet x h (n_rep n)) (set_stack t rest s))
                      | None => Undef
                      end
          | None => Undef
          end
        else Stuck                                          (* x was changed meanwhile: not a legal program *)
    | ISwap1 x y hx hy =>
        match add_ref hy s with
        | Some s1 => Next (set_stack t (IRelease hx :: ISwap2 x y hx hy :: rest) s1)
        | None => Undef
        end
    | ISwap2 x y hx hy =>
        match add_ref hx s with
        | Some s1 => Next (set_stack t (IRelease hy :: IRelease hx :: ISwap3 x y hx hy :: rest) s1)
        | None => Undef
        end
    | ISwap3 x y hx hy =>
        Next (add_log (EvSwap x y) (set_stack t rest (set_vars (<[y:=Some hx]> (<[x:=Some hy]> (vars s))) s)))
    | IDup h (S j) =>
        match add_ref h s with
        | Some s1 => Next (set_stack t (IRelease h :: IDup h j :: rest) s1)
        | None => Undef
        end
    | IDup h 0 => match release h s with Some s1 => Next (set_stack t rest s1) | None => Undef end
    | ITest h =>
        match ents s !! h with
        | Some n => Next (set_stack t ((if decide (n_cnt n = 0%Z) then IErase h else ISkip h) :: rest) s)
        | None => Undef
        end
    | IErase h =>
        match ents s !! h with
        | Some n => Next (add_log (EvErase h (p_key P (n_rep n)))
                           (set_stack t (map IRelease (p_kids P (n_rep n)) ++ rest) (set_ents (delete h (ents s)) s)))
        | None => Undef
        end
    | ISkip h =>
        match ents s !! h with
        | Some n => Next (set_stack t rest (put h (with_own n None) s))
        | None => Undef
        end
    end.

  Inductive op :=
  | ONew (x : var) (p : A) (ys : list var)
  | OCopy (x y : var)
  | OAssign (x y : var)
  | OSwap (x y : var)
  | ODestroy (x : var)
  | OGet (x : var).

  Definition start (s : state) (t : tid) (o : op) : res :=
    match o with
    | ONew x p ys =>
        match vars s !! x with
        | None => Next (set_stack t [IMake x p ys []] (set_vars (<[x:=None]> (vars s)) s))
        | Some _ => Stuck
        end
    | OCopy x y =>                                    (* 59 *)
        match vars s !! x, live s y with
        | None, Some h =>
            match add_ref h s with
            | Some s1 => Next (add_log (EvCopy x y) (set_stack t [] (set_vars (<[x:=Some h]> (vars s1)) s1)))
            | None => Undef
            end
        | _, _ => Stuck
        end
    | OAssign x y =>                                  (* 62-66: parameter, swap, ~parameter *)
        match live s x, live s y with
        | Some hx, Some hy =>
            match add_ref hy s with
            | Some s1 => Next (add_log (EvAssign x y) (set_stack t [IRelease hx] (set_vars (<[x:=Some hy]> (vars s1)) s1)))
            | None => Undef
            end
        | _, _ => Stuck
        end
    | OSwap x y =>                                    (* flyweight.hpp 278: std::swap(h,x.h) *)
        match live s x, live s y with
        | Some hx, Some hy =>
            match add_ref hx s with                   (* tmp *)
            | Some s1 =>
                if decide (x = y) then Next (add_log (EvSwap x y) (set_stack t [IDup hx 2] s1))
                else Next (set_stack t [ISwap1 x y hx hy] (set_vars (<[y:=None]> (<[x:=None]> (vars s1))) s1))
            | None => Undef
            end
        | _, _ => Stuck
        end
    | ODestroy x =>
        match live s x with
        | Some h => Next (add_log (EvDestroy x) (set_stack t [IRelease h] (set_vars (delete x (vars s)) s)))
        | None => Stuck
        end
    | OGet x =>                                       (* 170: entry(handle_type h){return h.get();} *)
        match live s x with
        | Some h =>
            match add_ref h s with
            | Some s1 => Next (set_stack t [IRelease h; IRead x h] s1)
            | None => Undef
            end
        | None => Stuck
        end
    end.

  (** [LBegin], [LLook h], [LEnd]: erase_if begins, takes up an element, ends *)
  Inductive label := LStart (t : tid) (o : op) | LRun (t : tid) (thr : bool) | LBegin | LLook (h : addr) | LEnd.

  Definition step (s : state) (l : label) : res :=
    match l with
    | LStart t o =>
        if decide (t = gc_tid) then Stuck else
        match stack s t with [] => start s t o | _ => Stuck end
    | LRun t thr => match stack s t with i :: rest => exec s t i rest thr | [] => Stuck end
    | LBegin =>
        match todo s with
        | None => Next (set_todo (Some (dom (ents s))) s)
        | Some _ => Stuck
        end
    | LLook h =>
        match todo s, stack s gc_tid, ents s !! h with
        | Some X, [], Some (Node r c None) =>
            Next (set_stack gc_tid [ITest h] (set_todo (Some (X ∖ {[h]})) (put h (Node r c (Some gc_tid)) s)))
        | _, _, _ => Stuck                            (* busy, or waits for access *)
        end
    | LEnd =>
        match todo s, stack s gc_tid with
        | Some X, [] => if decide (X = ∅) then Next (set_todo None s) else Stuck
        | _, _ => Stuck
        end
    end.

  Fixpoint run (s : state) (ls : list label) : res :=
    match ls with
    | [] => Next s
    | l :: ls =>
        match step s l with
        | Next s' => run s' ls
        | Stuck => run s ls
        | Undef => Undef
        end
    end.
End Concurrent.
