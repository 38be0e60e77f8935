(** Vocabulary in which the properties of the core machine are stated.
    Nothing here is used by the model itself. *)
From Verif Require Export Core.

Section Spec.
  Context {K A R V : Type}.
  Context (P : policy K A R V) (FS : factory K) (cfg : config).
  Notation state := (state (R:=R) (K:=K) (A:=A) FS).
  Notation event := (event (K:=K) (R:=R)).
  Notation label := (label (A:=A)).
  Implicit Types (s : state).

  (** Schedules covered: any with simple_locking, those of one thread [t0]
      with no_locking. *)
  Definition sched_ok (t0 : tid) (ls : list label) : Prop :=
    lck cfg = false → Forall (λ l, label_tid l = t0) ls.
  Definition reachable (t0 : tid) s : Prop :=
    ∃ ls, sched_ok t0 ls ∧ run P FS cfg (init FS) ls = Next s.

  (** What get() returns for [x]: the address and the contents. *)
  Definition value_of s (x : var) : option (addr * R) :=
    match vars s !! x with
    | Some (Some h) => match heap s !! h with Some n => Some (h, n_rep n) | None => None end
    | _ => None
    end.
  Definition key_of s (x : var) : option K :=
    match value_of s x with Some (_, r) => Some (p_key P r) | None => None end.

  (** Plain-value semantics of completed API calls (newest first): every
      object is a plain key/value. *)
  Definition upd (e : event) (m : gmap var K) : gmap var K :=
    match e with
    | EvNew x k => <[x:=k]> m
    | EvCopy x y | EvAssign x y => match m !! y with Some k => <[x:=k]> m | None => m end
    | EvSwap x y =>
        match m !! x, m !! y with
        | Some kx, Some ky => <[y:=kx]> (<[x:=ky]> m)
        | _, _ => m
        end
    | EvDestroy x => delete x m
    | EvThrow _ | EvGet _ _ _ | EvBuild _ _ | EvErase _ _ => m
    end.
  Fixpoint replay (l : list event) : gmap var K :=
    match l with [] => ∅ | e :: l => upd e (replay l) end.

  (** API calls that give [x] a new value or end its life *)
  Definition touches (x : var) (l : label) : bool :=
    match l with
    | LStart _ (OAssign y _) | LStart _ (ODestroy y) => bool_decide (x = y)
    | LStart _ (OSwap y z) => bool_decide (x = y) || bool_decide (x = z)
    | _ => false
    end.

  Definition quiescent s : Prop := ∀ t, stack s t = [].

  (** values a program can still reach: through a flyweight variable, or as a
      part of such a value *)
  Inductive held s : addr → Prop :=
  | held_var x h : vars s !! x = Some (Some h) → held s h
  | held_kid b n a : held s b → heap s !! b = Some n → a ∈ p_kids P (n_rep n) → held s a.

  (** newest construction (true) / erasure (false) event for a key equivalent
      to [k] *)
  Fixpoint newest (eqv : K → K → bool) (k : K) (l : list event) : option bool :=
    match l with
    | [] => None
    | EvBuild _ k' :: l => if eqv k' k then Some true else newest eqv k l
    | EvErase _ k' :: l => if eqv k' k then Some false else newest eqv k l
    | _ :: l => newest eqv k l
    end.

  Definition is_run (l : label) : Prop := match l with LRun _ _ => True | _ => False end.
End Spec.
Global Arguments value_of {_ _ _ _} _ _.
Global Arguments quiescent {_ _ _ _} _.
