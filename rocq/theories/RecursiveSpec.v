(** What recursive construction of values must amount to. *)
From Verif Require Export Recursive.

Section Spec.
  Context {K V : Type} (den : K → V).

  (** [p], running for key [k], makes flyweights of smaller keys only and,
      unless it throws, returns what [den] says if theirs have the values
      that [den] says: [den] is the direct recursive definition *)
  Fixpoint follows (lt : K → K → Prop) (k : K) (p : cprog) : Prop :=
    match p with
    | CRet v _ => v = den k
    | CThrow => True
    | CNew k' f => lt k' k ∧ follows lt k (f (den k'))
    | CDrop _ p => follows lt k p
    end.

  Fixpoint nothrow (p : @cprog K V) : Prop :=
    match p with CRet _ _ => True | CThrow => False | CNew _ f => ∀ v, nothrow (f v) | CDrop _ p => nothrow p end.

  (** what an operation does to the values of the named objects when values
      are computed directly; an object that exists is not created again *)
  Definition direct (o : uop) (m m' : nat → option V) : Prop :=
    match o with
    | UNew x k => ∀ z, m' z = if decide (z = x) then match m x with None => Some (den k) | r => r end else m z
    | UCopy x y => ∀ z, m' z = if decide (z = x) then match m x with None => m y | r => r end else m z
    | UDrop x => ∀ z, m' z = if decide (z = x) then None else m z
    end.

  (** the entries [H] and those in their values, and in theirs, ... *)
  Inductive live (H : list nat) (s : st (K:=K) (V:=V)) : nat → Prop :=
  | live_held h : h ∈ H → live H s h
  | live_kid h h' e : live H s h → ents s !! h = Some e → h' ∈ e_kids e → live H s h'.

  (** how often a value has been constructed for a key equivalent to [k] *)
  Definition times (eqv : K → K → bool) (k : K) (s : st (K:=K) (V:=V)) : nat :=
    length (filter (λ p : nat * K, eqv p.2 k = true) (log s)).
End Spec.
