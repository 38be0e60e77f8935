(** Vocabulary in which the properties of the machine of [Concurrent.v] are
    stated.  Nothing here is used by the model itself. *)
From Verif Require Export Concurrent.

Section Spec.
  Context {K A R V : Type}.
  Context (P : Core.policy K A R V) (eqv : K → K → bool).
  Notation state := (state (K:=K) (A:=A) (R:=R)).
  Notation instr := (instr (K:=K) (A:=A) (R:=R)).
  Notation label := (label (A:=A)).
  Implicit Types (s : state) (a h : addr).

  Definition reachable s : Prop := ∃ ls, run P eqv init ls = Next s.

  (** What get() returns for [x]: the address and the contents. *)
  Definition value_of s (x : var) : option (addr * R) :=
    match vars s !! x with
    | Some (Some h) => match ents s !! h with Some n => Some (h, n_rep n) | None => None end
    | _ => None
    end.

  (** ** an outside observer, who keeps a plain key for every object
      [PNew x p ys got]: object [x] is being constructed from arguments [p]
      and copies of [ys], those made so far denoting [got];
      [PSwap x y kx ky]: [x] and [y], standing for [kx] and [ky], are being
      swapped. *)
  Inductive pending := PNew (x : var) (p : A) (ys : list var) (got : list addr) | PSwap (x y : var) (kx ky : K).
  Record obs := Obs { o_vals : gmap var K; o_pend : gmap tid pending }.
  Definition observe s (l : label) (s' : state) (o : obs) : obs :=
    match l with
    | LStart t (ONew x p ys) => Obs (o_vals o) (<[t:=PNew x p ys []]> (o_pend o))
    | LStart _ (OCopy x y) | LStart _ (OAssign x y) =>
        match o_vals o !! y with
        | Some k => Obs (<[x:=k]> (o_vals o)) (o_pend o)
        | None => o
        end
    | LStart t (OSwap x y) =>
        match o_vals o !! x, o_vals o !! y with
        | Some kx, Some ky =>
            if decide (x = y) then o
            else Obs (delete y (delete x (o_vals o))) (<[t:=PSwap x y kx ky]> (o_pend o))
        | _, _ => o
        end
    | LStart _ (ODestroy x) => Obs (delete x (o_vals o)) (o_pend o)
    | LStart _ (OGet _) => o
    | LRun t _ =>
        match o_pend o !! t with
        | Some (PNew x p (y :: ys) got) =>                        (* the next argument is copied *)
            match live s y with
            | Some h => Obs (o_vals o) (<[t:=PNew x p ys (got ++ [h])]> (o_pend o))
            | None => o
            end
        | Some (PNew x p [] got) =>
            match vars s' !! x with
            | Some None => o                                      (* still under construction *)
            | None => Obs (o_vals o) (delete t (o_pend o))        (* exception *)
            | Some (Some _) =>
                match p_make P p got with
                | Some r => Obs (<[x:=p_key P r]> (o_vals o)) (delete t (o_pend o))
                | None => Obs (o_vals o) (delete t (o_pend o))
                end
            end
        | Some (PSwap x y kx ky) =>
            match vars s' !! x with
            | Some (Some _) => Obs (<[y:=kx]> (<[x:=ky]> (o_vals o))) (delete t (o_pend o))
            | _ => o
            end
        | None => o
        end
    | LBegin | LLook _ | LEnd => o
    end.
  Fixpoint watch s (o : obs) (ls : list label) : obs :=
    match ls with
    | [] => o
    | l :: ls =>
        match step P eqv s l with
        | Next s' => watch s' (observe s l s' o) ls
        | Stuck => watch s o ls
        | Undef => o
        end
    end.

  (** API calls that give [x] a new value or end its life *)
  Definition touches (x : var) (l : label) : bool :=
    match l with
    | LStart _ (OAssign y _) | LStart _ (ODestroy y) => bool_decide (x = y)
    | LStart _ (OSwap y z) => bool_decide (x = y) || bool_decide (x = z)
    | _ => false
    end.

  (** a call in progress holds a flyweight (object or temporary) to [a] *)
  Definition holds (a : addr) (i : instr) : Prop :=
    match i with
    | IMake _ _ _ got => a ∈ got
    | IEnter _ _ r => a ∈ p_kids P r
    | IVisit _ _ _ ks _ | IAddRef _ _ ks _ => a ∈ ks
    | ILeave _ h ks _ => a = h ∨ a ∈ ks
    | IRelease h | IBind _ h _ | IDup h _ => a = h
    | ISwap1 _ _ hx hy | ISwap2 _ _ hx hy | ISwap3 _ _ hx hy => a = hx ∨ a = hy
    | _ => False
    end.
  (** a flyweight to [a] exists: a variable, one inside a stored value, or
      one in a call in progress *)
  Definition referenced s a : Prop :=
    (∃ x, vars s !! x = Some (Some a)) ∨
    (∃ b n, ents s !! b = Some n ∧ a ∈ p_kids P (n_rep n)) ∨
    (∃ t i, i ∈ stack s t ∧ holds a i).
  (** a creation in progress has selected entry [a] *)
  Definition selected s a : Prop :=
    ∃ t x ks k, (∃ p, IVisit x a p ks k ∈ stack s t) ∨ IAddRef x a ks k ∈ stack s t ∨
      ILeave x a ks k ∈ stack s t ∨ IBind x a k ∈ stack s t.

  Definition quiescent s : Prop := ∀ t, stack s t = [].
  Definition gc_label (l : label) : Prop :=
    match l with LBegin | LLook _ | LEnd => True | LRun t _ => t = gc_tid | LStart _ _ => False end.
  (** collection passes completed while [ls] runs *)
  Fixpoint passes s (ls : list label) : nat :=
    match ls with
    | [] => 0
    | l :: ls =>
        match step P eqv s l with
        | Next s' => (match l with LEnd => 1 | _ => 0 end) + passes s' ls
        | Stuck => passes s ls
        | Undef => 0
        end
    end.
End Spec.
Global Arguments value_of {_ _ _} _ _.
Global Arguments quiescent {_ _ _} _.
Global Arguments Obs {_ _} _ _.
Global Arguments o_vals {_ _} _.
Global Arguments o_pend {_ _} _.
Global Arguments gc_label {_} _.
Global Arguments touches {_} _ _.

Section Spec2.
  Context {K A R V : Type}.
  Context (P : Core.policy K A R V) (eqv : K → K → bool).
  Notation state := (state (K:=K) (A:=A) (R:=R)).
  Notation label := (label (A:=A)).

  (** the next step of thread [t] uses an object that is not there (any more):
      the program is not a legal one *)
  Definition illegal (s : state) (t : tid) : Prop :=
    match stack s t with
    | IMake _ _ (y :: _) _ :: _ => live s y = None
    | IRead x h :: _ => live s x ≠ Some h
    | _ => False
    end.
  (** steps thread [t] takes while [ls] runs *)
  Fixpoint own_steps (t : tid) (s : state) (ls : list label) : nat :=
    match ls with
    | [] => 0
    | l :: ls =>
        match step P eqv s l with
        | Next s' => (match l with LRun t' _ => if decide (t' = t) then 1 else 0 | _ => 0 end) + own_steps t s' ls
        | Stuck => own_steps t s ls
        | Undef => 0
        end
    end.
  Definition starts (t : tid) (l : label) : Prop := match l with LStart t' _ => t' = t | _ => False end.

  (** [h] is the entry the creation from arguments [p] with contents [r], run
      from [s] to [s'], ends up with; [bs]: the constructions it did.  A
      usable entry is shared; one without value, left by a constructor that
      threw, is completed; otherwise there was no equivalent entry and [h] is
      new. *)
  Definition served (s s' : state) (p : A) (r : R) (h : addr) (bs : list (Core.event (K:=K) (R:=R))) : Prop :=
    ∃ n, ents s' !! h = Some n ∧ is_Some (p_val P (n_rep n)) ∧ eqv (p_key P (n_rep n)) (p_key P r) = true ∧
    match ents s !! h with
    | Some m =>
        match p_val P (n_rep m) with
        | Some _ => n_rep n = n_rep m ∧ bs = []
        | None => n_rep n = p_build P p (n_rep m) ∧ bs = [EvBuild h (p_key P r)]
        end
    | None =>
        (∀ b m, ents s !! b = Some m → eqv (p_key P (n_rep m)) (p_key P r) = false) ∧
        match p_val P r with
        | Some _ => n_rep n = r ∧ bs = []
        | None => n_rep n = p_build P p r ∧ bs = [EvBuild h (p_key P r)]
        end
    end.
  (** stored contents are as before, except perhaps for entry [h] *)
  Definition same_reps (s s' : state) (h : option addr) : Prop :=
    ∀ b, h ≠ Some b → n_rep <$> ents s' !! b = n_rep <$> ents s !! b.

  (** flyweight objects and flyweights inside stored values that refer to [a] *)
  Definition objects (s : state) (a : addr) : nat :=
    length (filter (λ p : nat * option addr, p.2 = Some a) (map_to_list (vars s))) +
    length (filter (λ b, b = a) (concat (map (λ p : addr * node, p_kids P (n_rep p.2)) (map_to_list (ents s))))).
End Spec2.
