(** Programs as in [Client.v], with flyweights that use concurrent_factory: one
    thread of the machine of [Concurrent.v] runs the program. *)
From Verif Require Import PropInner Client.
From Verif Require Export ConcurrentSpec.
From Verif Require Import Concurrent.

Section ConClient.
  Context {K A R V L O : Type}.
  Context (P : Core.policy K A R V) (eqv : K → K → bool) (lab : R → L).
  Notation state := (state (K:=K) (A:=A) (R:=R)).
  Notation prog := (prog (A:=A) (L:=L) (O:=O)).

  (** [None]: copies of flyweights within values are not in [Concurrent.v] *)
  Definition cop (o : Core.op (A:=A)) : option (op (A:=A)) :=
    match o with
    | Core.ONew x a ys => Some (ONew x a ys)
    | Core.OCopy x y => Some (OCopy x y)
    | Core.OAssign x y => Some (OAssign x y)
    | Core.OSwap x y => Some (OSwap x y)
    | Core.ODestroy x => Some (ODestroy x)
    | Core.OGet x => Some (OGet x)
    | Core.OInner _ _ _ => None
    end.
  (** flyweight_core.hpp 186-194 and concurrent_factory.hpp 170 at each level.
      [None]: undefined behaviour, or there is no such flyweight. *)
  Definition stored (s : state) (h : addr) : option R :=
    match ents s !! h with
    | Some n => match p_val P (n_rep n) with Some _ => Some (n_rep n) | None => None end
    | None => None
    end.
  Fixpoint within (s : state) (h : addr) (path : list nat) : option (addr * R) :=
    match stored s h with
    | Some r =>
        match path with
        | [] => Some (h, r)
        | j :: path => match p_kids P r !! j with Some h' => within s h' path | None => None end
        end
    | None => None
    end.
  Definition found (s : state) (x : var) (path : list nat) : option (addr * R) :=
    match live s x with Some h => within s h path | None => None end.
  Definition look (s : state) (x : var) (path : list nat) : option (L * nat) :=
    match found s x path with Some (_, r) => Some (lab r, length (p_kids P r)) | None => None end.
  Definition same (s : state) (x : var) (path : list nat) (y : var) (path' : list nat) : option bool :=
    match found s x path, found s y path' with Some (h, _), Some (h', _) => Some (bool_decide (h = h')) | _, _ => None end.
  Definition made_it (s : state) (o : Core.op (A:=A)) : bool :=
    match o with Core.ONew x _ _ => match live s x with Some _ => true | None => false end | _ => true end.

  (** [w]: a call of the program is in progress *)
  Notation config := (state * bool * prog)%type.
  Inductive conlab := CEnv (l : label (A:=A)) | CGo.
  Definition begins (t : tid) (l : label (A:=A)) : bool := match l with LStart u _ => bool_decide (u = t) | _ => false end.
  Definition cgo (t : tid) (c : config) : option config :=
    let '(s, w, p) := c in
    match p with
    | Ret _ => Some c
    | Call o k =>
        if w then match stack s t with [] => Some (s, false, k (made_it s o)) | _ => Some c end
        else match cop o with
             | Some o => match step P eqv s (LStart t o) with Next s' => Some (s', true, p) | _ => None end
             | None => None
             end
    | Look x path k => match look s x path with Some (l, n) => Some (s, false, k l n) | None => None end
    | Same x path y path' k => match same s x path y path' with Some b => Some (s, false, k b) | None => None end
    end.
  Definition cpstep (t : tid) (c : config) (l : conlab) : option config :=
    let '(s, w, p) := c in
    match l with
    | CEnv l => if begins t l then Some c
                else match step P eqv s l with Next s' => Some (s', w, p) | Stuck => Some c | Undef => None end
    | CGo => cgo t c
    end.
  Fixpoint cprun (t : tid) (c : config) (ls : list conlab) : option config :=
    match ls with
    | [] => Some c
    | l :: ls => match cpstep t c l with Some c => cprun t c ls | None => None end
    end.
End ConClient.
Global Arguments CEnv {_} _.
Global Arguments CGo {_}.
