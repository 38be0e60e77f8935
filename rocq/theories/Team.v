(** Several threads that run programs with flyweights at the same time; as
    [Client.v], but for any number of threads.  Threads without a program do
    anything with objects of their own. *)
From Verif Require Import SerializeProofs CoreRace Instances PropInner.
From Verif Require Export Client.

Section Team.
  Context {K A R V L O : Type}.
  Context (P : policy K A R V) (FS : factory K) (cfg : config).
  Context (lab : R → L).
  Notation state := (state (R:=R) (K:=K) (A:=A) FS).
  Notation label := (label (A:=A)).
  Notation prog := (prog (A:=A) (L:=L) (O:=O)).
  (** each thread with its program, and whether a call of it is in progress *)
  Notation team := (gmap tid (bool * prog)).

  Inductive tlab := TEnv (l : label) | TGo (u : tid).
  Definition tstep (c : state * team) (l : tlab) : option (state * team) :=
    let '(s, ps) := c in
    match l with
    | TEnv l =>
        if match l with LStart u _ => bool_decide (is_Some (ps !! u)) | LRun _ _ => false end then Some c
        else match step P FS cfg s l with Next s' => Some (s', ps) | Stuck => Some c | Undef => None end
    | TGo u =>
        match ps !! u with
        | Some (w, p) => match pgo P FS cfg lab u (s, w, p) with Some (s', w', p') => Some (s', <[u:=(w', p')]> ps) | None => None end
        | None => Some c
        end
    end.
  Fixpoint trun (c : state * team) (ls : list tlab) : option (state * team) :=
    match ls with
    | [] => Some c
    | l :: ls => match tstep c l with Some c => trun c ls | None => None end
    end.
End Team.
Global Arguments TEnv {_} _.
Global Arguments TGo {_} _.

(** A process that forks threads, joins them, forks again...: a list of teams.
    The threads of a team start when all those of the one before are done, and
    have succeeded ([fine]). *)
Section Stages.
  Context {K A R V L O : Type}.
  Context (P : policy K A R V) (FS : factory K) (cfg : config).
  Context (lab : R → L) (fine : O → bool).
  Notation state := (state (R:=R) (K:=K) (A:=A) FS).
  Notation prog := (prog (A:=A) (L:=L) (O:=O)).
  Notation team := (gmap tid (bool * prog)).
  Definition fine_prog (c : bool * prog) : bool := match c with (false, Ret o) => fine o | _ => false end.
  Definition all_fine (ps : team) : bool := forallb (λ c, fine_prog c.2) (map_to_list ps).
  Inductive flab := FTeam (l : tlab (A:=A)) | FJoin.
  Definition fstep (c : state * team * list team) (l : flab) : option (state * team * list team) :=
    let '(s, ps, rest) := c in
    match l with
    | FTeam l => match tstep P FS cfg lab (s, ps) l with Some (s', ps') => Some (s', ps', rest) | None => None end
    | FJoin => match rest with ps' :: rest' => if all_fine ps then Some (s, ps', rest') else Some c | [] => Some c end
    end.
  Fixpoint frun (c : state * team * list team) (ls : list flab) : option (state * team * list team) :=
    match ls with
    | [] => Some c
    | l :: ls => match fstep c l with Some c => frun c ls | None => None end
    end.
End Stages.
Global Arguments FTeam {_} _.
Global Arguments FJoin {_}.
