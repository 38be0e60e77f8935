(** Vocabulary for the properties of [Shutdown.v]. *)
From Verif Require Export Shutdown.

Definition reachable (s : state) : Prop := ∃ ls, run start ls = Next s.
(** number of effective steps of a schedule *)
Fixpoint steps (s : state) (ls : list label) : nat :=
  match ls with
  | [] => 0
  | l :: ls => match step s l with Next s' => S (steps s' ls) | Stuck => steps s ls | Undef => 0 end
  end.
(** steps of the collector; steps which need neither a time-out nor a spurious wake-up *)
Definition of_gc (l : label) : Prop := l ≠ L_own.
Definition planned (l : label) : Prop := match l with L_wake _ => False | _ => True end.
(** the destructor has stopped the collector and joined it *)
Definition joined (s : state) : Prop := match opos s with O_destroy _ | O_done => True | _ => False end.
(** accesses of the collector still outstanding in its current traversal *)
Definition traversal (s : state) : nat := match gpos s with Some (G_pass n) => n | _ => 0 end.

(** infinite executions *)
Section infinite.
  Context (σ : nat → label).
  Fixpoint st (n : nat) : state :=
    match n with
    | 0 => start
    | S n => let s := st n in match step s (σ n) with Next s' => s' | _ => s end
    end.
  Definition enabled (s : state) (l : label) : Prop := ∃ s', step s l = Next s'.
  Definition takes (P : label → Prop) (n : nat) : Prop := P (σ n) ∧ enabled (st n) (σ n).
  (** the owner, if it never proceeds any more, is from some time on not able
      to (strong fairness: a mutex that is free again and again is granted) *)
  Definition fair_owner : Prop :=
    ∀ n, (∀ m, n ≤ m → ¬ takes (eq L_own) m) → ∃ k, n ≤ k ∧ ∀ m, k ≤ m → ¬ enabled (st m) L_own.
  (** the collector proceeds if it is always able to (weak fairness) *)
  Definition fair_gc : Prop :=
    ∀ n, (∀ m, n ≤ m → ∃ l, of_gc l ∧ planned l ∧ enabled (st m) l) → ∃ m, n ≤ m ∧ takes of_gc m.
End infinite.
