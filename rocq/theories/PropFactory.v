(** The container factories as unique sets, under any history of insertions
    and erasures (vocabulary in [FactoryProps.v]). *)
From Verif Require Import FactoryProps HashedFactoryProofs SetFactoryProofs Instances.

(** Specification: what "unique set" means for a factory state.  [fmem s] are
    the stored elements, address -> key. *)
Definition unique_set {K} (FS : factory K) (eqv : K → K → bool) (s : fstate FS) : Prop :=
  (* no two equivalent elements *)
  (∀ a b ka kb, fmem s !! a = Some ka → fmem s !! b = Some kb → eqv ka kb = true → a = b) ∧
  (* insert: the equivalent element if there is one, otherwise the argument is stored *)
  (∀ k a, fmem s !! a = None →
     ∃ s' h, finsert FS s k a = Some (s', h) ∧
       (∀ b kb, fmem s !! b = Some kb → eqv kb k = true → h = b ∧ fmem s' = fmem s) ∧
       ((∀ b kb, fmem s !! b = Some kb → eqv kb k = false) → h = a ∧ fmem s' = <[a:=k]> (fmem s))) ∧
  (* erase removes exactly the given element *)
  (∀ a, is_Some (fmem s !! a) → fmem (ferase FS s a) = delete a (fmem s)).

(** C15: any compatible hash, any equivalence predicate, any rehashing
    policy *)
Theorem C15_hashed_factory {K} (hash : K → nat) (pred : K → K → bool) n0 grow s :
  equivalence pred → (∀ k l, pred k l = true → hash k = hash l) →
  freach (hashed_factory hash pred n0 grow) s →
  unique_set (hashed_factory hash pred n0 grow) pred s.
Proof.
  intros Hp Hh. apply factory_unique_set; [done|]. by apply hashed_factory_spec.
Qed.

(** C16: any strict weak ordering, any rebalancing *)
Theorem C16_set_factory {K} (lt : K → K → bool) rot s :
  strict_weak_order lt → (∀ t, inorder (rot t) = inorder t) →
  freach (set_factory lt rot) s →
  unique_set (set_factory lt rot) (lt_eqv lt) s.
Proof.
  intros Hl Hr. apply factory_unique_set; [by apply lt_eqv_equivalence|]. by apply set_factory_spec.
Qed.

(** the requirements matter: hash not compatible with pred (equality modulo
    2, identity hash), order not irreflexive *)
Definition pred2 (k l : nat) : bool := k mod 2 =? l mod 2.
Theorem C15_incompatible_hash_refuted :
  equivalence pred2 ∧
  ∃ s a b ka kb, freach (hashed_factory (λ k, k) pred2 3 (λ _ _, None)) s ∧
    fmem s !! a = Some ka ∧ fmem s !! b = Some kb ∧ pred2 ka kb = true ∧ a ≠ b.
Proof.
  split.
  { unfold pred2. split; intros *; rewrite ?Nat.eqb_eq; congruence. }
  set (FS := hashed_factory (λ k, k) pred2 3 (λ _ _, None)).
  set (s1 := FState FS (hs_link (λ k : nat, k) (λ _ _, None) (replicate 4 []) (λ b, <[0:=0]> (∅ : gmap nat nat) !! b) 0) (<[0:=0]> ∅)).
  set (s2 := FState FS (hs_link (λ k : nat, k) (λ _ _, None) (fcont s1) (λ b, <[1:=2]> (<[0:=0]> (∅ : gmap nat nat)) !! b) 1)
     (<[1:=2]> (<[0:=0]> ∅))).
  exists s2, 0, 1, 0, 2. split_and!; [|by vm_compute..].
  apply (fr_step FS s1 (FInsert 2 1)); [|by vm_compute|by vm_compute].
  apply (fr_step FS (finit FS) (FInsert 0 0)); [constructor|by vm_compute|by vm_compute].
Qed.

Theorem C16_not_strict_refuted :
  ∃ s a b ka kb, freach (set_factory Nat.leb (λ t, t)) s ∧
    fmem s !! a = Some ka ∧ fmem s !! b = Some kb ∧ ka = kb ∧ a ≠ b.
Proof.
  set (FS := set_factory Nat.leb (λ t, t)).
  set (s1 := FState FS (Br Leaf 0 Leaf) (<[0:=5]> (∅ : gmap nat nat))).
  set (s2 := FState FS (Br (Br Leaf 1 Leaf) 0 Leaf) (<[1:=5]> (<[0:=5]> (∅ : gmap nat nat)))).
  exists s2, 0, 1, 5, 5. split_and!; [|by vm_compute..].
  apply (fr_step FS s1 (FInsert 5 1)); [|by vm_compute|by vm_compute].
  apply (fr_step FS (finit FS) (FInsert 5 0)); [constructor|by vm_compute|by vm_compute].
Qed.

(** and flyweights built on such a factory lose sharing *)
Theorem C15_sharing_lost_refuted :
  ∃ (s : state (hashed_factory (λ k, k) pred2 3 (λ _ _, None))) x y hx rx hy ry,
    let P := default_policy (λ (a : nat) (_ : list nat), Some a) (λ _, []) in
    reachable P _ (Config true true) 0 s ∧
    value_of s x = Some (hx, rx) ∧ value_of s y = Some (hy, ry) ∧ pred2 rx ry = true ∧ hx ≠ hy.
Proof.
  exists (final (default_policy (λ (a : nat) (_ : list nat), Some a) (λ _, [])) _ (Config true true)
    (call 1 (ONew 0 0 []) 100 ++ call 1 (ONew 1 2 []) 101)), 0, 1, 100, 0, 101, 2. cbv zeta.
  split; [by apply final_reachable; vm_compute|]. by vm_compute.
Qed.

(** ** Concrete cases *)
Example C15_example : equivalence ieq ∧ (∀ k l, ieq k l = true → ihash k = ihash l) ∧
  ∃ s, freach iFS s ∧ fmem s !! 1 = Some (17, []) ∧ fmem s !! 2 = Some (8, []).
Proof.
  split; [exact ieq_equivalence|]. split.
  { intros k l [H%bool_decide_eq_true _]%andb_true_iff. done. }
  set (get := λ o : option (fstate iFS * nat), match o with Some (s, _) => s | None => finit iFS end).
  set (s1 := get (finsert iFS (finit iFS) (17, []) 1)). set (s2 := get (finsert iFS s1 (8, []) 2)).
  exists s2. split_and!; [|by vm_compute..].
  apply (fr_step iFS s1 (FInsert (8, []) 2) s2); [|by vm_compute|by vm_compute].
  apply (fr_step iFS (finit iFS) (FInsert (17, []) 1) s1); [apply fr_init|by vm_compute|by vm_compute].
Qed.
Lemma ltb_strict_weak : strict_weak_order Nat.ltb.
Proof.
  split; intros *.
  - apply Nat.ltb_irrefl.
  - rewrite !Nat.ltb_lt. lia.
  - rewrite !Nat.ltb_ge. lia.
Qed.
Example C16_example : strict_weak_order Nat.ltb ∧
  ∃ s, freach (set_factory Nat.ltb (λ t, t)) s ∧ fmem s !! 1 = Some 7 ∧ fmem s !! 2 = Some 8.
Proof.
  split; [exact ltb_strict_weak|]. set (FS := set_factory Nat.ltb (λ t, t)).
  set (s1 := FState FS (Br Leaf 1 Leaf) (<[1:=7]> (∅ : gmap nat nat))).
  set (s2 := FState FS (Br Leaf 1 (Br Leaf 2 Leaf)) (<[2:=8]> (<[1:=7]> (∅ : gmap nat nat)))).
  exists s2. split_and!; [|by vm_compute..].
  apply (fr_step FS s1 (FInsert 8 2)); [|by vm_compute|by vm_compute].
  apply (fr_step FS (finit FS) (FInsert 7 1)); [constructor|by vm_compute|by vm_compute].
Qed.

Print Assumptions C15_hashed_factory.
Print Assumptions C16_set_factory.
Print Assumptions C15_incompatible_hash_refuted.
Print Assumptions C16_not_strict_refuted.
Print Assumptions C15_sharing_lost_refuted.
