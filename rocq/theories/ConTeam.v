(** Several threads that run programs with flyweights that use
    concurrent_factory; as [Team.v], over the machine of [Concurrent.v]. *)
From Verif Require Import Team.
From Verif Require Export ConClient.
From Verif Require Import Concurrent.

Section ConTeam.
  Context {K A R V L O : Type}.
  Context (P : Core.policy K A R V) (eqv : K → K → bool) (lab : R → L) (fine : O → bool).
  Notation state := (state (K:=K) (A:=A) (R:=R)).
  Notation prog := (prog (A:=A) (L:=L) (O:=O)).
  Notation team := (gmap tid (bool * prog)).

  Inductive ctlab := CTEnv (l : label (A:=A)) | CTGo (u : tid).
  Definition ctstep (c : state * team) (l : ctlab) : option (state * team) :=
    let '(s, ps) := c in
    match l with
    | CTEnv l =>
        if match l with LStart u _ => bool_decide (is_Some (ps !! u)) | _ => false end then Some c
        else match step P eqv s l with Next s' => Some (s', ps) | Stuck => Some c | Undef => None end
    | CTGo u =>
        match ps !! u with
        | Some (w, p) => match cgo P eqv lab u (s, w, p) with Some (s', w', p') => Some (s', <[u:=(w', p')]> ps) | None => None end
        | None => Some c
        end
    end.
  Fixpoint ctrun (c : state * team) (ls : list ctlab) : option (state * team) :=
    match ls with
    | [] => Some c
    | l :: ls => match ctstep c l with Some c => ctrun c ls | None => None end
    end.

  (** teams one after the other *)
  Inductive cflab := CFTeam (l : ctlab) | CFJoin.
  Definition cfstep (c : state * team * list team) (l : cflab) : option (state * team * list team) :=
    let '(s, ps, rest) := c in
    match l with
    | CFTeam l => match ctstep (s, ps) l with Some (s', ps') => Some (s', ps', rest) | None => None end
    | CFJoin => match rest with ps' :: rest' => if all_fine fine ps then Some (s, ps', rest') else Some c | [] => Some c end
    end.
  Fixpoint cfrun (c : state * team * list team) (ls : list cflab) : option (state * team * list team) :=
    match ls with
    | [] => Some c
    | l :: ls => match cfstep c l with Some c => cfrun c ls | None => None end
    end.
End ConTeam.
Global Arguments CTEnv {_} _.
Global Arguments CTGo {_} _.
Global Arguments CFTeam {_} _.
Global Arguments CFJoin {_}.
