(** Vocabulary for the properties of [Statics.v]. *)
From Verif Require Export Statics.

(** [d] is called at exit before [e] *)
Definition before (d e : dtor) (k : list dtor) : Prop := ∃ k1 k2, k = k1 ++ d :: k2 ∧ e ∈ k2.

Section spec.
  Context (core : nat → nat) (tracked : nat → bool) (kids : nat → list nat).
  Definition kid (f g : nat) : Prop := g ∈ kids f.
  (** destroying flyweight [f] may access class [c]: [c] is the class of [f]
      or of a flyweight nested in it, and reference counted *)
  Definition needs (f c : nat) : Prop := ∃ g, rtc kid f g ∧ core g = c ∧ tracked c = true.

  (** what the user has to respect for a safe exit: a static object whose
      construction is complete is given only flyweights of classes initialized
      before that; so are the classes of the flyweights within values of a
      class without tracking; and at exit all flyweights left belong to static objects *)
  Definition allowed (s : state) (l : label) : Prop :=
    match l with
    | LStep =>
        match todo s with
        | OInsert f o :: _ =>
            (DObj o ∈ stack s → ∀ c, c = core f ∨ needs f c → before (DObj o) (DHolder c) (stack s)) ∧
            (tracked (core f) = false → ∀ g c, g ∈ kids f → needs g c → before (DHolder (core f)) (DHolder c) (stack (init (core f) s)))
        | _ => True
        end
    | LExit => ∀ o f, (o, f) ∈ owns s → DObj o ∈ stack s
    | _ => True
    end.
  Fixpoint guarded (s : state) (ls : list label) : Prop :=
    match ls with
    | [] => True
    | l :: ls => allowed s l ∧ match step core tracked kids s l with Next s' => guarded s' ls | Stuck => guarded s ls | Undef => True end
    end.
  (** the weaker condition that at exit all flyweights left belong to static objects *)
  Fixpoint no_leak (s : state) (ls : list label) : bool :=
    match ls with
    | [] => true
    | l :: ls => (match l with LExit => forallb (λ p, bool_decide (DObj p.1 ∈ stack s)) (owns s) | _ => true end) &&
        match step core tracked kids s l with Next s' => no_leak s' ls | Stuck => no_leak s ls | Undef => true end
    end.
  (** a value is not part of itself *)
  Definition acyclic : Prop := ∃ rank : nat → nat, ∀ f g, g ∈ kids f → rank g < rank f.
  Definition reachable (s : state) : Prop := ∃ ls, run core tracked kids start ls = Next s.
End spec.

(** the program starts with the initialization of the classes [cs], in that order *)
Definition initializers (cs : list nat) : list label := cs ≫= λ c, [LOp (OInit c); LStep].
(** the program completes operation [x] *)
Definition whole (x : op) (n : nat) : list label := LOp x :: replicate n LStep.
