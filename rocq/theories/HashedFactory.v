(** hashed_factory (H/hashed_factory.hpp 37-100): the factory is a
    multi_index_container with one hashed_unique index, i.e. an array of
    buckets of entry addresses.  Before an insertion the container may be
    rehashed to any number of buckets, decided by an arbitrary policy [grow]
    (number of elements, number of buckets -> new number of buckets minus
    one, or no rehashing).  [S n0] is the initial number of buckets.  Hash
    values are not cached: rehashing reads the keys of the stored entries. *)
From Verif Require Export Factory.

Section HashedFactory.
  Context {K : Type} (hash : K → nat) (pred : K → K → bool).
  Context (n0 : nat) (grow : nat → nat → option nat).
  Implicit Types (kv : addr → option K).

  Notation buckets := (list (list addr)).

  Definition hash_at (kv : addr → option K) (a : addr) : nat :=
    match kv a with Some k => hash k | None => 0 end.

  (** scan of one bucket: pred(k, key of node) (hashed_index link_point) *)
  Fixpoint scan (l : list addr) kv (k : K) : fres :=
    match l with
    | [] => NotFound
    | a :: l =>
        match kv a with
        | None => BadRead
        | Some ka => if pred k ka then Found a else scan l kv k
        end
    end.

  Definition put_in (b : buckets) (i : nat) (a : addr) : buckets := alter (λ l, a :: l) i b.

  Definition n_elems (b : buckets) : nat := length (concat b).

  Definition hs_find (b : buckets) kv (k : K) : fres :=
    match b !! (hash k mod length b) with
    | Some l => scan l kv k
    | None => NotFound
    end.

  (** distribute the elements [as_] into [n] new buckets *)
  Fixpoint distribute (as_ : list addr) kv (b : buckets) : buckets :=
    match as_ with
    | [] => b
    | a :: as_ => distribute as_ kv (put_in b (hash_at kv a mod length b) a)
    end.
  Definition rehash (b : buckets) kv : buckets :=
    match grow (S (n_elems b)) (length b) with
    | Some n => distribute (concat b) kv (replicate (S n) [])
    | None => b
    end.

  (** H/hashed_factory.hpp 74-84: insertion of a new element *)
  Definition hs_link (b : buckets) kv (a : addr) : buckets :=
    let b' := rehash b kv in put_in b' (hash_at kv a mod length b') a.

  (** H/hashed_factory.hpp 86-89: erase by iterator; no hashing *)
  Definition hs_unlink (b : buckets) kv (a : addr) : buckets := filter (λ c, c ≠ a) <$> b.

  Definition hashed_factory : factory K := Factory _ _ (replicate (S n0) []) hs_find (λ c _, c) hs_link hs_unlink.
End HashedFactory.
