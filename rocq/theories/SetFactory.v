(** set_factory (H/set_factory.hpp 28-82, H/assoc_container_factory.hpp
    41-93): the factory is an std::set<Entry,Compare>.

    The set is a binary search tree of entry addresses, searched as usual
    implementations do; after every insertion and removal the tree may be
    restructured by an arbitrary function that keeps the in-order sequence
    (red-black rotations are one). *)
From Verif Require Export Factory.

Inductive tree := Leaf | Br (l : tree) (a : addr) (r : tree).

Fixpoint inorder (t : tree) : list addr :=
  match t with Leaf => [] | Br l a r => inorder l ++ a :: inorder r end.

Section SetFactory.
  Context {K : Type} (lt : K → K → bool).
  Context (rot : tree → tree).
  Implicit Types (kv : addr → option K).

  (** last element not greater than [k] (descent of
      _M_get_insert_unique_pos).  [None]: a dead entry was read. *)
  Fixpoint pos (t : tree) kv (k : K) (best : option addr) : option (option addr) :=
    match t with
    | Leaf => Some best
    | Br l a r =>
        match kv a with
        | None => None
        | Some ka => if lt k ka then pos l kv k best else pos r kv k (Some a)
        end
    end.

  (** cont.insert(x): position search (assoc_container_factory.hpp 59-69) *)
  Definition set_find (t : tree) kv (k : K) : fres :=
    match pos t kv k None with
    | None => BadRead
    | Some None => NotFound
    | Some (Some a) =>
        match kv a with
        | None => BadRead
        | Some ka => if lt ka k then NotFound else Found a
        end
    end.

  Fixpoint insert_leaf (t : tree) kv (a : addr) (k : K) : tree :=
    match t with
    | Leaf => Br Leaf a Leaf
    | Br l b r =>
        match kv b with
        | None => Br l b r
        | Some kb => if lt k kb then Br (insert_leaf l kv a k) b r else Br l b (insert_leaf r kv a k)
        end
    end.
  Definition set_link (t : tree) kv (a : addr) : tree :=
    match kv a with Some k => rot (insert_leaf t kv a k) | None => t end.

  (** cont.erase(h): by iterator, no comparisons
      (assoc_container_factory.hpp 71-74) *)
  Fixpoint join (l r : tree) : tree :=
    match l with Leaf => r | Br l1 a r1 => Br l1 a (join r1 r) end.
  Fixpoint remove (t : tree) (a : addr) : tree :=
    match t with
    | Leaf => Leaf
    | Br l b r => if decide (a = b) then join l r else Br (remove l a) b (remove r a)
    end.
  Definition set_unlink (t : tree) kv (a : addr) : tree := rot (remove t a).

  Definition set_factory : factory K := Factory _ _ Leaf set_find (λ c _, c) set_link set_unlink.
End SetFactory.

(** Requirement on Compare. *)
Record strict_weak_order {K} (lt : K → K → bool) : Prop := {
  swo_irrefl : ∀ x, lt x x = false;
  swo_trans : ∀ x y z, lt x y = true → lt y z = true → lt x z = true;
  swo_incomp : ∀ x y z, lt x y = false → lt y x = false → lt y z = false → lt z y = false →
    lt x z = false ∧ lt z x = false;
}.
(** equivalence induced by Compare *)
Definition lt_eqv {K} (lt : K → K → bool) (x y : K) : bool := negb (lt x y) && negb (lt y x).
