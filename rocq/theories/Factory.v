(** The factory concept (H/ = /repo/include/boost/flyweight/).

    A factory is a container of *addresses* of entries; it reads keys through
    the entries it stores, exactly as the node containers used by
    H/hashed_factory.hpp and H/assoc_container_factory.hpp do.  [kv] is the
    key view of memory: [kv a = None] means that no live entry is stored at
    [a]; reading it is undefined behaviour ([BadRead]). *)
From Verif Require Export Prelude.

Notation addr := nat (only parsing).

Inductive fres := Found (a : addr) | NotFound | BadRead.

(** H/assoc_container_factory.hpp 59-76, H/hashed_factory.hpp 74-91:
    [insert] is [f_find] and, on a hit, [f_hit], which may reorganize the
    container; on a miss, allocation of a node followed by [f_link]; [erase] is [f_unlink] followed by destruction of the node;
    [entry] is dereferencing the address. *)
Record factory (K : Type) := Factory {
  f_cont : Type;
  f_empty : f_cont;
  f_find : f_cont → (addr → option K) → K → fres;
  f_hit : f_cont → addr → f_cont;
  f_link : f_cont → (addr → option K) → addr → f_cont;
  f_unlink : f_cont → (addr → option K) → addr → f_cont;
}.
Global Arguments f_cont {_} _.
Global Arguments f_empty {_} _.
Global Arguments f_find {_} _ _ _ _.
Global Arguments f_hit {_} _ _ _.
Global Arguments f_link {_} _ _ _ _.
Global Arguments f_unlink {_} _ _ _ _.

(** Specification of a factory: [fi_inv c kv X] says that container [c]
    stores exactly the entries at addresses [X]. *)
Record factory_spec {K : Type} (eqv : K → K → bool) (FS : factory K) := FactorySpec {
  fi_inv : f_cont FS → (addr → option K) → gset addr → Prop;
  fi_empty : ∀ kv, fi_inv (f_empty FS) kv ∅;
  fi_keys : ∀ c kv X a, fi_inv c kv X → a ∈ X → is_Some (kv a);
  fi_found : ∀ c kv X k a, fi_inv c kv X → f_find FS c kv k = Found a →
    a ∈ X ∧ ∃ k', kv a = Some k' ∧ eqv k' k = true;
  fi_notfound : ∀ c kv X k a k', fi_inv c kv X → f_find FS c kv k = NotFound →
    a ∈ X → kv a = Some k' → eqv k' k = false;
  fi_goodread : ∀ c kv X k, fi_inv c kv X → f_find FS c kv k ≠ BadRead;
  fi_hit : ∀ c kv X a, fi_inv c kv X → a ∈ X → fi_inv (f_hit FS c a) kv X;
  fi_link : ∀ c kv X a k, fi_inv c kv X → a ∉ X → kv a = Some k →
    (∀ b k', b ∈ X → kv b = Some k' → eqv k' k = false) →
    fi_inv (f_link FS c kv a) kv ({[a]} ∪ X);
  fi_unlink : ∀ c kv X a, fi_inv c kv X → a ∈ X →
    fi_inv (f_unlink FS c kv a) kv (X ∖ {[a]});
  fi_view : ∀ c kv kv' X, fi_inv c kv X →
    (∀ a k, a ∈ X → kv a = Some k → ∃ k', kv' a = Some k' ∧ eqv k' k = true) →
    fi_inv c kv' X;
}.
Global Arguments fi_inv {_ _ _} _ _ _ _.

(** Requirement on the equivalence induced by the user's Pred / Compare. *)
Record equivalence {K : Type} (eqv : K → K → bool) : Prop := {
  eqv_refl : ∀ k, eqv k k = true;
  eqv_sym : ∀ k l, eqv k l = true → eqv l k = true;
  eqv_trans : ∀ k l m, eqv k l = true → eqv l m = true → eqv k m = true;
}.
