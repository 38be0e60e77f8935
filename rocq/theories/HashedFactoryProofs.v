(** hashed_factory satisfies the factory laws when Pred is an equivalence and
    Hash is compatible with it, for any rehashing policy. *)
From Verif Require Export HashedFactory.

Notation buckets := (list (list addr)) (only parsing).

Section proofs.
  Context {K : Type} (hash : K → nat) (pred : K → K → bool) (Hpred : equivalence pred).
  Context (Hhash : ∀ k l, pred k l = true → hash k = hash l).
  Context (n0 : nat) (grow : nat → nat → option nat).
  Implicit Types (kv : addr → option K) (b : buckets).

  Definition stored b (a : addr) : Prop := ∃ i l, b !! i = Some l ∧ a ∈ l.
  Definition placed b kv : Prop := ∀ i l a, b !! i = Some l → a ∈ l →
    ∃ k, kv a = Some k ∧ i = hash k mod length b.

  Lemma stored_concat b a : stored b a ↔ a ∈ concat b.
  Proof.
    rewrite elem_of_list_In, in_concat. split.
    - intros (i&l&Hi&Ha). exists l. split; apply elem_of_list_In; [by eapply elem_of_list_lookup_2|done].
    - intros (l&Hl&Ha). apply elem_of_list_In in Hl, Ha. apply elem_of_list_lookup in Hl as [i Hi]. by exists i, l.
  Qed.

  Lemma put_in_length b i a : length (put_in b i a) = length b.
  Proof. apply alter_length. Qed.
  Lemma put_in_stored b i a c : i < length b → stored (put_in b i a) c ↔ c = a ∨ stored b c.
  Proof.
    intros Hi. unfold put_in. split.
    - intros (j&l&Hj&Hc). destruct (decide (i = j)) as [->|Hne].
      + rewrite list_lookup_alter in Hj. destruct (b !! j) as [l'|] eqn:E; simplify_eq/=.
        apply elem_of_cons in Hc as [->|Hc]; [by left|]. right. by exists j, l'.
      + rewrite list_lookup_alter_ne in Hj by done. right. by exists j, l.
    - destruct (lookup_lt_is_Some_2 b i Hi) as [l Hl]. intros [->|(j&l'&Hj&Hc)].
      + exists i, (a :: l). rewrite list_lookup_alter, Hl. split; [done|by left].
      + destruct (decide (i = j)) as [->|Hne].
        * exists j, (a :: l'). rewrite list_lookup_alter, Hj. split; [done|by right].
        * exists j, l'. by rewrite list_lookup_alter_ne.
  Qed.
  Lemma put_in_placed b kv a k : placed b kv → kv a = Some k → placed (put_in b (hash k mod length b) a) kv.
  Proof.
    intros Hp Hk i l c. rewrite put_in_length. unfold put_in. intros Hi Hc.
    destruct (decide (hash k mod length b = i)) as [<-|Hne].
    - rewrite list_lookup_alter in Hi. destruct (b !! _) as [l'|] eqn:E; simplify_eq/=.
      apply elem_of_cons in Hc as [->|Hc]; [by eauto|]. by eapply Hp.
    - rewrite list_lookup_alter_ne in Hi by done. by eapply Hp.
  Qed.

  Lemma distribute_spec kv as_ b : length b ≠ 0 → (∀ a, a ∈ as_ → is_Some (kv a)) → placed b kv →
    length (distribute hash as_ kv b) = length b ∧ placed (distribute hash as_ kv b) kv ∧
    ∀ c, stored (distribute hash as_ kv b) c ↔ c ∈ as_ ∨ stored b c.
  Proof.
    revert b. induction as_ as [|a as_ IH]; intros b Hb Hl Hp; simpl.
    { split_and!; [done|done|]. intros c. rewrite elem_of_nil. naive_solver. }
    destruct (Hl a) as [k Hk]; [by left|]. unfold hash_at. rewrite Hk.
    assert (Hlt : hash k mod length b < length b) by (apply Nat.mod_upper_bound; done).
    destruct (IH (put_in b (hash k mod length b) a)) as (E1&E2&E3).
    - by rewrite put_in_length.
    - intros c Hc. apply Hl. by right.
    - by apply put_in_placed.
    - rewrite E1, put_in_length. split_and!; [done|done|]. intros c.
      rewrite E3, put_in_stored, elem_of_cons by done. naive_solver.
  Qed.

  Lemma empty_stored n c : ¬ stored (replicate n []) c.
  Proof. intros (i&l&[-> _]%lookup_replicate&?%elem_of_nil). done. Qed.
  Lemma empty_placed n kv : placed (replicate n []) kv.
  Proof. intros i l a [-> _]%lookup_replicate ?%elem_of_nil. done. Qed.

  Definition hs_inv b kv (X : gset addr) : Prop :=
    length b ≠ 0 ∧ placed b kv ∧ ∀ a, a ∈ X ↔ stored b a.

  Lemma rehash_inv b kv X : hs_inv b kv X → hs_inv (rehash hash grow b kv) kv X.
  Proof.
    intros (Hn&Hp&HX). unfold rehash. destruct (grow _ _) as [n|]; [|done].
    destruct (distribute_spec kv (concat b) (replicate (S n) [])) as (E1&E2&E3).
    - by rewrite replicate_length.
    - intros a (i&l&Hi&Ha)%stored_concat. destruct (Hp _ _ _ Hi Ha) as (k&->&_). eauto.
    - apply empty_placed.
    - split_and!; [by rewrite E1, replicate_length|done|]. intros a. rewrite E3, HX, stored_concat.
      split; [by left|]. intros [?|H]; [done|]. by apply empty_stored in H.
  Qed.

  Lemma scan_found l kv k a : scan pred l kv k = Found a → a ∈ l ∧ ∃ ka, kv a = Some ka ∧ pred k ka = true.
  Proof.
    induction l as [|c l IH]; simpl; [done|]. destruct (kv c) as [kc|] eqn:E; [|done].
    destruct (pred k kc) eqn:Ep.
    - intros [= ->]. split; [by left|eauto].
    - intros [??]%IH. split; [by right|done].
  Qed.
  Lemma scan_notfound l kv k : scan pred l kv k = NotFound →
    ∀ a ka, a ∈ l → kv a = Some ka → pred k ka = false.
  Proof.
    induction l as [|c l IH]; simpl; intros Hs a ka; [by intros ?%elem_of_nil|].
    destruct (kv c) as [kc|] eqn:E; [|done]. destruct (pred k kc) eqn:Ep; [done|].
    intros [->|Ha]%elem_of_cons Hka; [congruence|by eapply IH].
  Qed.
  Lemma scan_bad l kv k : (∀ a, a ∈ l → is_Some (kv a)) → scan pred l kv k ≠ BadRead.
  Proof.
    induction l as [|c l IH]; simpl; intros Hl; [done|]. destruct (Hl c) as [kc ->]; [by left|].
    destruct (pred k kc); [done|]. apply IH. intros a Ha. apply Hl. by right.
  Qed.

  Definition hashed_factory_spec : factory_spec pred (hashed_factory hash pred n0 grow).
  Proof.
    refine (FactorySpec _ _ (hashed_factory hash pred n0 grow) hs_inv _ _ _ _ _ _ _ _ _).
    - intros kv. split_and!; [by simpl|apply empty_placed|]. intros a. split; [set_solver|].
      intros H. by apply empty_stored in H.
    - intros c; simpl in c; intros kv X a (Hn&Hp&HX) (i&l&Hi&Ha)%HX. destruct (Hp _ _ _ Hi Ha) as (k&->&_). eauto.
    - intros c; simpl in c; intros kv X k a (Hn&Hp&HX). simpl. unfold hs_find. destruct (c !! _) as [l|] eqn:E; [|done].
      intros (Ha&ka&Hka&Hpr)%scan_found. split; [apply HX; by exists (hash k mod length c), l|].
      exists ka. split; [done|]. by apply (eqv_sym _ Hpred).
    - intros c; simpl in c; intros kv X k a k' (Hn&Hp&HX) Hf (i&l&Hi&Ha)%HX Hk'.
      destruct (pred k' k) eqn:Epr; [|done]. exfalso.
      destruct (Hp _ _ _ Hi Ha) as (k''&?&Hidx). simplify_eq. simpl in Hf. unfold hs_find in Hf.
      rewrite <- (Hhash _ _ Epr), Hi in Hf.
      pose proof (scan_notfound _ _ _ Hf _ _ Ha Hk') as E. apply (eqv_sym _ Hpred) in Epr. congruence.
    - intros c; simpl in c; intros kv X k (Hn&Hp&HX). simpl. unfold hs_find. destruct (c !! _) as [l|] eqn:E; [|done].
      apply scan_bad. intros a Ha. destruct (Hp _ _ _ E Ha) as (ka&->&_). eauto.
    - done.
    - intros c; simpl in c; intros kv X a k Hinv Ha Hk _. simpl. unfold hs_link, hash_at. rewrite Hk.
      apply rehash_inv in Hinv. destruct Hinv as (Hn&Hp&HX). set (c' := rehash hash grow c kv) in *.
      split_and!; [by rewrite put_in_length|by apply put_in_placed|]. intros x.
      rewrite put_in_stored by (by apply Nat.mod_upper_bound). rewrite elem_of_union, elem_of_singleton, HX. done.
    - intros c; simpl in c; intros kv X a (Hn&Hp&HX) Ha. simpl. unfold hs_unlink.
      assert (Hst : ∀ x, stored (filter (λ c, c ≠ a) <$> c) x ↔ x ≠ a ∧ stored c x).
      { intros x. split.
        - intros (i&l&Hi&Hx). rewrite list_lookup_fmap in Hi. destruct (c !! i) as [l'|] eqn:E; simplify_eq/=.
          apply elem_of_list_filter in Hx as [??]. split; [done|]. by exists i, l'.
        - intros [Hne (i&l&Hi&Hx)]. exists i, (filter (λ c, c ≠ a) l). rewrite list_lookup_fmap, Hi.
          split; [done|]. by apply elem_of_list_filter. }
      split_and!.
      + by rewrite fmap_length.
      + intros i l x Hi Hx. rewrite fmap_length. rewrite list_lookup_fmap in Hi.
        destruct (c !! i) as [l'|] eqn:E; simplify_eq/=. apply elem_of_list_filter in Hx as [??]. by eapply Hp.
      + intros x. rewrite Hst, elem_of_difference, elem_of_singleton, HX. naive_solver.
    - intros c; simpl in c; intros kv kv' X (Hn&Hp&HX) Hv. split_and!; [done| |done]. intros i l a Hi Ha.
      destruct (Hp _ _ _ Hi Ha) as (k&Hk&->).
      destruct (Hv a k) as (k'&Hk'&E); [|done|].
      { apply HX. eexists _, l. done. }
      exists k'. split; [done|]. by rewrite (Hhash _ _ E).
  Defined.
End proofs.
