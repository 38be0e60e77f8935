(** Vocabulary for the properties of [Mutex.v]. *)
From Verif Require Export Mutex.

(** locks and unlocks of [t] so far *)
Fixpoint locks (t : tid) (l : list event) : nat :=
  match l with [] => 0 | Locked u :: l => (if decide (u = t) then 1 else 0) + locks t l | Unlocked _ :: l => locks t l end.
Fixpoint unlocks (t : tid) (l : list event) : nat :=
  match l with [] => 0 | Unlocked u :: l => (if decide (u = t) then 1 else 0) + unlocks t l | Locked _ :: l => unlocks t l end.

Definition finished (s : state) (t : tid) : Prop := ∀ th, threads s !! t = Some th → th_code th = [].
Definition reachable (s : state) : Prop := ∃ ps ls, run (start ps) ls = Next s.
(** the schedule [ls] is effective: no step of it waits *)
Fixpoint steps (s : state) (ls : list (tid * bool)) : nat :=
  match ls with
  | [] => 0
  | l :: ls => match step s l with Next s' => S (steps s' ls) | Stuck => steps s ls | Undef => 0 end
  end.
