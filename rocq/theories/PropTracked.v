(** C55: concurrent_factory with refcounted tracking. *)
From Verif Require Import Tracked.

(** ** Vocabulary *)
(** two threads about to write the plain counter of the entry *)
Definition writes_del (p : pc) : bool := match p with CDel | DDel => true | _ => false end.
Definition race (s : state) : Prop := ∃ t u p q, t ≠ u ∧ thr s !! t = Some p ∧ thr s !! u = Some q ∧ writes_del p = true ∧ writes_del q = true.
(** handles of the factory held by a thread *)
Definition h_inner (p : pc) : nat :=
  match p with
  | CLock | CIns | CUnlock false | OLock | OUnlock => 0
  | CCopy | CUnlock true | KIn | GGet | DRef | DLock | DDel | DArg | DUnlock | DIn => 1
  | CRef | CDel | CTmp | KRef | DArgEnd => 2
  end.
(** counted tracking handles held by a thread *)
Definition h_ref (p : pc) : nat := match p with CDel | CTmp | CUnlock true | KIn | KRef | GGet | DRef => 1 | _ => 0 end.
Definition h_del (p : pc) : nat := match p with DLock | DDel => 1 | _ => 0 end.
Definition h_new (p : pc) : nat := match p with CDel => 1 | _ => 0 end.
Definition locked (p : pc) : bool :=
  match p with CIns | CCopy | CRef | CDel | CTmp | CUnlock _ | DDel | DArg | DArgEnd | DUnlock | OUnlock => true | _ => false end.

Section proofs.
  Context (lck : bool).
  Definition reachable (s : state) : Prop := ∃ ls, run lck init ls = Next s.

  Record inv (s : state) : Prop := Inv {
    i_inner : inner s = Z.of_nat (objs s + msum h_inner (thr s));
    i_ref : ref s = Z.of_nat (objs s + msum h_ref (thr s));
    i_del : (del s = (if bool_decide (0 < ref s)%Z then 1 else 0) + Z.of_nat (msum h_del (thr s)) - Z.of_nat (msum h_new (thr s)))%Z;
    i_alive : alive s = false → inner s = 0%Z;
    i_owner : lck = true → ∀ t, owner s = Some t ↔ ∃ p, thr s !! t = Some p ∧ locked p = true;
  }.
  Lemma inv_init : inv init.
  Proof.
    split; simpl; rewrite ?msum_empty; try done. intros _ t. split; [done|]. intros (p & H & _). by rewrite lookup_empty in H.
  Qed.
  Lemma inv_ref_le s : inv s → (ref s ≤ inner s)%Z.
  Proof.
    intros I. rewrite (i_inner _ I), (i_ref _ I). assert (msum h_ref (thr s) ≤ msum h_inner (thr s)); [|lia].
    generalize (thr s). intros m. induction m as [|k x m Hk IH] using map_ind; [by rewrite !msum_empty|].
    rewrite !msum_new by done. assert (h_ref x ≤ h_inner x); [|lia]. destruct x as [| | | | | |[]| | | | | | | | | | | |]; simpl; lia.
  Qed.
  Lemma inv_alive s t p : inv s → thr s !! t = Some p → 0 < h_inner p → alive s = true.
  Proof.
    intros I Ht Hp. destruct (alive s) eqn:E; [done|]. apply (i_alive _ I) in E. rewrite (i_inner _ I) in E.
    pose proof (msum_ge h_inner _ _ _ Ht). lia.
  Qed.

  (** effect of one thread's move on the sums *)
  Lemma owner_move s t p q : inv s → thr s !! t = Some p → lck = true → locked p = locked q →
    ∀ u, owner s = Some u ↔ ∃ r, <[t:=q]> (thr s) !! u = Some r ∧ locked r = true.
  Proof.
    intros I Ht Hl Hpq u. rewrite (i_owner _ I Hl u). destruct (decide (u = t)) as [->|Hne].
    - rewrite lookup_insert, Ht. split; intros (r & [= <-] & H); eexists; (split; [done|congruence]).
    - by rewrite lookup_insert_ne.
  Qed.
  Lemma owner_gone s t p : inv s → thr s !! t = Some p → lck = true → locked p = false →
    ∀ u, owner s = Some u ↔ ∃ r, delete t (thr s) !! u = Some r ∧ locked r = true.
  Proof.
    intros I Ht Hl Hp u. rewrite (i_owner _ I Hl u). destruct (decide (u = t)) as [->|Hne].
    - rewrite lookup_delete, Ht. split; [intros (r & [= <-] & H); congruence|by intros (r & ? & _)].
    - by rewrite lookup_delete_ne.
  Qed.
  Lemma owner_start s t q : inv s → thr s !! t = None → lck = true → locked q = false →
    ∀ u, owner s = Some u ↔ ∃ r, <[t:=q]> (thr s) !! u = Some r ∧ locked r = true.
  Proof.
    intros I Ht Hl Hq u. rewrite (i_owner _ I Hl u). destruct (decide (u = t)) as [->|Hne].
    - rewrite lookup_insert, Ht. split; [by intros (r & ? & _)|intros (r & [= <-] & H); congruence].
    - by rewrite lookup_insert_ne.
  Qed.
  Lemma owner_take s t q : inv s → lck = true → owner s = None → locked q = true →
    ∀ u, Some t = Some u ↔ ∃ r, <[t:=q]> (thr s) !! u = Some r ∧ locked r = true.
  Proof.
    intros I Hl Ho Hq u. destruct (decide (u = t)) as [->|Hne].
    - rewrite lookup_insert. split; [intros _; by exists q|done].
    - rewrite lookup_insert_ne by done. rewrite <- (i_owner _ I Hl u), Ho. split; congruence.
  Qed.
  Lemma owner_only s t p u q : inv s → lck = true → thr s !! t = Some p → locked p = true → thr s !! u = Some q → locked q = true → u = t.
  Proof.
    intros I Hl Ht Hp Hu Hq. assert (owner s = Some t) as E1 by (apply (i_owner _ I Hl); eauto).
    assert (owner s = Some u) as E2 by (apply (i_owner _ I Hl); eauto). congruence.
  Qed.
  Lemma owner_drop s t p o : inv s → lck = true → thr s !! t = Some p → locked p = true → (∀ q, o = Some q → locked q = false) →
    ∀ u, None = Some u ↔ ∃ r, match o with Some q => <[t:=q]> (thr s) | None => delete t (thr s) end !! u = Some r ∧ locked r = true.
  Proof.
    intros I Hl Ht Hp Ho u. split; [done|]. intros (r & Hr & Hlr). exfalso. destruct (decide (u = t)) as [->|Hne].
    - destruct o as [q|]; [rewrite lookup_insert in Hr; simplify_eq; by rewrite Ho in Hlr|by rewrite lookup_delete in Hr].
    - assert (thr s !! u = Some r) as Hu by (destruct o; [by rewrite lookup_insert_ne in Hr|by rewrite lookup_delete_ne in Hr]).
      apply Hne. by eapply owner_only.
  Qed.

  Ltac sums t p q Ht :=
    pose proof (msum_upd h_inner _ t p q Ht); pose proof (msum_upd h_ref _ t p q Ht);
    pose proof (msum_upd h_del _ t p q Ht); pose proof (msum_upd h_new _ t p q Ht).
  Ltac dsums t p Ht :=
    pose proof (msum_delete h_inner _ t p Ht); pose proof (msum_delete h_ref _ t p Ht);
    pose proof (msum_delete h_del _ t p Ht); pose proof (msum_delete h_new _ t p Ht).
  Ltac fin I := destruct I as [Ii Ir Id Ia Io]; repeat case_bool_decide; simpl in *; try lia.

  Lemma step_inv s l s' : inv s → step lck s l = Next s' → inv s'.
  Proof.
    intros I. destruct l as [t o|t b|]; simpl.
    - unfold begin. destruct (thr s !! t) eqn:Ht; [done|].
      pose proof (λ q, msum_new h_inner _ t q Ht) as S1. pose proof (λ q, msum_new h_ref _ t q Ht) as S2.
      pose proof (λ q, msum_new h_del _ t q Ht) as S3. pose proof (λ q, msum_new h_new _ t q Ht) as S4.
      destruct o; [|destruct (objs s) eqn:Eo..|]; intros; simplify_eq;
        (split; simpl; [rewrite S1; fin I|rewrite S2; fin I|rewrite S3, S4; fin I|apply I|intros Hl; by apply owner_start]).
    - unfold step_thread. destruct (thr s !! t) as [p|] eqn:Ht; [|done].
      pose proof (inv_ref_le s I) as Hle.
      destruct p as [| | | | | |c| | | | | | | | | | | |].
      + unfold acquire. destruct lck eqn:El; [destruct (owner s) eqn:Eo; [done|]|]; intros; simplify_eq; sums t CLock CIns Ht.
        * split; simpl; [fin I..|apply I|]. intros _. apply owner_take; auto.
        * split; simpl; [fin I..|apply I|intros; congruence].
      + (* CIns *)
        assert (∃ s1, s1 = (if alive s then s else new_entry s) ∧ inv s1 ∧ alive s1 = true ∧ thr s1 = thr s) as (s1 & <- & I1 & Ha1 & Et).
        { eexists. split; [done|]. destruct (alive s) eqn:Ea; [done|]. split; [|done].
          pose proof (i_alive _ I Ea) as E0. assert (ref s = 0%Z) as R0 by (destruct I; lia).
          pose proof (i_del _ I) as Hd. pose proof (i_inner _ I) as Hi. pose proof (i_ref _ I) as Hr. rewrite R0 in Hd. rewrite bool_decide_false in Hd by lia.
          assert (∀ f : pc → nat, (∀ p, 0 < f p → 0 < h_inner p) → msum f (thr s) = 0) as Hz.
          { intros f Hf. apply msum_zero. intros k x Hk. pose proof (msum_ge h_inner _ _ _ Hk). specialize (Hf x). lia. }
          split; simpl; try done; try lia.
          - rewrite !Hz; [done|..]; intros []; simpl; lia.
          - intros Hl u. apply (i_owner _ I Hl). }
        destruct b; intros; simplify_eq.
        * rewrite <- Et in Ht. sums t CIns CCopy Ht. split; simpl; [fin I1..|congruence|]. intros Hl. by eapply owner_move.
        * sums t CIns (CUnlock false) Ht. split; simpl; [fin I..|apply I|]. intros Hl. by eapply owner_move.
        * rewrite <- Et in Ht. sums t CIns (CUnlock false) Ht. split; simpl; [fin I1..|congruence|]. intros Hl. by eapply owner_move.
      + unfold on_entry. rewrite (inv_alive s t _ I Ht) by (simpl; lia). intros; simplify_eq. sums t CCopy CRef Ht.
        split; simpl; [fin I..|rewrite (inv_alive s t _ I Ht) by (simpl; lia); done|]. intros Hl. by eapply owner_move.
      + unfold on_entry. rewrite (inv_alive s t _ I Ht) by (simpl; lia). intros; simplify_eq.
        assert (0 ≤ ref s)%Z by (rewrite (i_ref _ I); lia).
        destruct (ref s + 1 =? 1)%Z eqn:E; [apply Z.eqb_eq in E|apply Z.eqb_neq in E].
        * sums t CRef CDel Ht. split; simpl; [fin I..|rewrite (inv_alive s t _ I Ht) by (simpl; lia); done|]. intros Hl. by eapply owner_move.
        * sums t CRef CTmp Ht. split; simpl; [fin I..|rewrite (inv_alive s t _ I Ht) by (simpl; lia); done|]. intros Hl. by eapply owner_move.
      + unfold on_entry. rewrite (inv_alive s t _ I Ht) by (simpl; lia). intros; simplify_eq. sums t CDel CTmp Ht.
        split; simpl; [fin I..|rewrite (inv_alive s t _ I Ht) by (simpl; lia); done|]. intros Hl. by eapply owner_move.
      + unfold on_entry. rewrite (inv_alive s t _ I Ht) by (simpl; lia). intros; simplify_eq. sums t CTmp (CUnlock true) Ht.
        split; simpl; [fin I..|rewrite (inv_alive s t _ I Ht) by (simpl; lia); done|]. intros Hl. by eapply owner_move.
      + unfold release. intros; simplify_eq. dsums t (CUnlock c) Ht.
        destruct c, lck eqn:El; (split; simpl; [fin I..|apply I|try (intros; congruence)]); intros _; apply (owner_drop s t _ None I El Ht); done.
      + unfold on_entry. rewrite (inv_alive s t _ I Ht) by (simpl; lia). intros; simplify_eq. sums t KIn KRef Ht.
        split; simpl; [fin I..|rewrite (inv_alive s t _ I Ht) by (simpl; lia); done|]. intros Hl. by eapply owner_move.
      + unfold on_entry. rewrite (inv_alive s t _ I Ht) by (simpl; lia). intros; simplify_eq. dsums t KRef Ht.
        assert (1 ≤ ref s)%Z by (rewrite (i_ref _ I); pose proof (msum_ge h_ref _ _ _ Ht); simpl in *; lia).
        split; simpl; [fin I..|rewrite (inv_alive s t _ I Ht) by (simpl; lia); done|]. intros Hl. by eapply owner_gone.
      + unfold on_entry. rewrite (inv_alive s t _ I Ht) by (simpl; lia). intros; simplify_eq. dsums t GGet Ht.
        split; simpl; [fin I..|rewrite (inv_alive s t _ I Ht) by (simpl; lia); done|]. intros Hl. by eapply owner_gone.
      + unfold on_entry. rewrite (inv_alive s t _ I Ht) by (simpl; lia). intros; simplify_eq.
        assert (1 ≤ ref s)%Z by (rewrite (i_ref _ I); pose proof (msum_ge h_ref _ _ _ Ht); simpl in *; lia).
        destruct (ref s - 1 =? 0)%Z eqn:E; [apply Z.eqb_eq in E|apply Z.eqb_neq in E].
        * sums t DRef DLock Ht. split; simpl; [fin I..|rewrite (inv_alive s t _ I Ht) by (simpl; lia); done|]. intros Hl. by eapply owner_move.
        * sums t DRef DIn Ht. split; simpl; [fin I..|rewrite (inv_alive s t _ I Ht) by (simpl; lia); done|]. intros Hl. by eapply owner_move.
      + unfold acquire. destruct lck eqn:El; [destruct (owner s) eqn:Eo; [done|]|]; intros; simplify_eq; sums t DLock DDel Ht.
        * split; simpl; [fin I..|apply I|]. intros _. apply owner_take; auto.
        * split; simpl; [fin I..|apply I|intros; congruence].
      + unfold on_entry. rewrite (inv_alive s t _ I Ht) by (simpl; lia). intros; simplify_eq.
        destruct (del s - 1 =? 0)%Z.
        * sums t DDel DArg Ht. split; simpl; [fin I..|rewrite (inv_alive s t _ I Ht) by (simpl; lia); done|]. intros Hl. by eapply owner_move.
        * sums t DDel DUnlock Ht. split; simpl; [fin I..|rewrite (inv_alive s t _ I Ht) by (simpl; lia); done|]. intros Hl. by eapply owner_move.
      + unfold on_entry. rewrite (inv_alive s t _ I Ht) by (simpl; lia). intros; simplify_eq. sums t DArg DArgEnd Ht.
        split; simpl; [fin I..|rewrite (inv_alive s t _ I Ht) by (simpl; lia); done|]. intros Hl. by eapply owner_move.
      + unfold on_entry. rewrite (inv_alive s t _ I Ht) by (simpl; lia). intros; simplify_eq. sums t DArgEnd DUnlock Ht.
        split; simpl; [fin I..|rewrite (inv_alive s t _ I Ht) by (simpl; lia); done|]. intros Hl. by eapply owner_move.
      + unfold release. intros; simplify_eq. sums t DUnlock DIn Ht.
        destruct lck eqn:El; (split; simpl; [fin I..|apply I|try (intros; congruence)]). intros _. apply (owner_drop s t _ (Some DIn) I El Ht); [done|]. by intros ? [= <-].
      + unfold on_entry. rewrite (inv_alive s t _ I Ht) by (simpl; lia). intros; simplify_eq. dsums t DIn Ht.
        split; simpl; [fin I..|rewrite (inv_alive s t _ I Ht) by (simpl; lia); done|]. intros Hl. by eapply owner_gone.
      + unfold acquire. destruct lck eqn:El; [destruct (owner s) eqn:Eo; [done|]|]; intros; simplify_eq; sums t OLock OUnlock Ht.
        * split; simpl; [fin I..|apply I|]. intros _. apply owner_take; auto.
        * split; simpl; [fin I..|apply I|intros; congruence].
      + unfold release. intros; simplify_eq. dsums t OUnlock Ht.
        destruct lck eqn:El; (split; simpl; [fin I..|apply I|try (intros; congruence)]). intros _. apply (owner_drop s t _ None I El Ht); done.
    - unfold collect. destruct (alive s) eqn:Ea; [|by intros [= <-]]. destruct (inner s =? 0)%Z eqn:E0; [|by intros [= <-]].
      apply Z.eqb_eq in E0. intros; simplify_eq.
      pose proof (inv_ref_le s I) as Hle. assert (ref s = 0%Z) as R0 by (destruct I; lia).
      pose proof (i_del _ I) as Hd. rewrite R0 in Hd. rewrite bool_decide_false in Hd by lia.
      assert (∀ f : pc → nat, (∀ p, 0 < f p → 0 < h_inner p) → msum f (thr s) = 0) as Hz.
      { intros f Hf. apply msum_zero. intros k x Hk. pose proof (msum_ge h_inner _ _ _ Hk). specialize (Hf x). pose proof (i_inner _ I). lia. }
      split; simpl; try done.
      + pose proof (i_inner _ I). lia.
      + pose proof (i_ref _ I). lia.
      + rewrite !Hz; [done|..]; intros []; simpl; lia.
      + intros Hl u. apply (i_owner _ I Hl).
  Qed.

  Lemma step_defined s l : inv s → step lck s l ≠ Undef.
  Proof.
    intros I. destruct l as [t o|t b|]; simpl.
    - unfold begin. destruct (thr s !! t); [done|]. destruct o; try done; by destruct (objs s).
    - unfold step_thread. destruct (thr s !! t) as [p|] eqn:Ht; [|done]. unfold acquire, release, on_entry.
      destruct p; rewrite ?(inv_alive s t _ I Ht) by (simpl; lia); try done; try (destruct lck; [by destruct (owner s)|done]); by destruct b.
    - unfold collect. destruct (alive s); [|done]. by destruct (_ =? _)%Z.
  Qed.
  Lemma run_inv ls : ∀ s s', inv s → run lck s ls = Next s' → inv s'.
  Proof.
    induction ls as [|l ls IH]; intros s s' I; simpl; [by intros [= <-]|].
    destruct (step lck s l) as [s1| |] eqn:E; [|by eauto|done]. intros H. eapply IH; [|done]. by eapply step_inv.
  Qed.
  Lemma reachable_inv s : reachable s → inv s.
  Proof. intros [ls H]. eapply run_inv; [apply inv_init|done]. Qed.

  (** No access to an entry that is gone, with or without locking. *)
  Theorem C55_safe ls : run lck init ls ≠ Undef.
  Proof.
    assert (∀ s, inv s → run lck s ls ≠ Undef) as H; [|apply H, inv_init].
    induction ls as [|l ls IH]; intros s I; simpl; [done|].
    destruct (step lck s l) as [s1| |] eqn:E; [apply IH; by eapply step_inv|by apply IH|by apply step_defined in E].
  Qed.
  (** With simple_locking the plain counter is never accessed by two threads. *)
  Theorem C55_no_race s : lck = true → reachable s → ¬ race s.
  Proof.
    intros Hl Hr (t & u & p & q & Hne & Ht & Hu & Hp & Hq). apply reachable_inv in Hr. apply Hne.
    eapply owner_only; eauto; [by destruct q|by destruct p].
  Qed.
  (** The collector takes the entry only when no flyweight and no thread
      refers to it, *)
  Theorem C55_kept s s' : reachable s → step lck s LGc = Next s' → alive s = true → alive s' = false →
    objs s = 0 ∧ ∀ t p, thr s !! t = Some p → h_inner p = 0.
  Proof.
    intros Hr Hs Ha Ha'. apply reachable_inv in Hr. simpl in Hs. unfold collect in Hs. rewrite Ha in Hs.
    destruct (inner s =? 0)%Z eqn:E; simplify_eq/=; [|congruence]. apply Z.eqb_eq in E. pose proof (i_inner _ Hr) as Hi. split; [lia|].
    intros t p Ht. pose proof (msum_ge h_inner _ _ _ Ht). lia.
  Qed.
  (** and then it does. *)
  Theorem C55_collected s : reachable s → objs s = 0 → (∀ t p, thr s !! t = Some p → h_inner p = 0) →
    ∃ s', step lck s LGc = Next s' ∧ alive s' = false.
  Proof.
    intros Hr H0 Ht. apply reachable_inv in Hr. pose proof (i_inner _ Hr) as Hi.
    assert (msum h_inner (thr s) = 0) as Hz by (by apply msum_zero). simpl. unfold collect.
    destruct (alive s) eqn:Ea; [|by eauto]. rewrite Hi, H0, Hz. simpl. eauto.
  Qed.
  (** Between operations the counters are the number of flyweights, and one
      deleter if there are any. *)
  Theorem C55_counters s : reachable s → thr s = ∅ →
    inner s = Z.of_nat (objs s) ∧ ref s = Z.of_nat (objs s) ∧ del s = (if bool_decide (0 < objs s)%nat then 1 else 0)%Z ∧ (0 < objs s → alive s = true).
  Proof.
    intros Hr Ht. apply reachable_inv in Hr. destruct Hr as [Hi Hf Hd Ha _]. rewrite Ht, !msum_empty in *.
    split_and!; [lia|lia| |].
    - rewrite Hd, Hf. repeat case_bool_decide; lia.
    - intros H. destruct (alive s); [done|]. specialize (Ha eq_refl). lia.
  Qed.
  (** At all times: the counters never run below what refers to the entry, and
      a deleter that counts down to 0 leaves no counted flyweight. *)
  Theorem C55_last_deleter s t b s' : lck = true → reachable s → step lck s (LStep t b) = Next s' →
    thr s !! t = Some DDel → (0 ≤ del s')%Z ∧ (del s' = 0%Z → objs s' = 0 ∧ ∀ u p, thr s' !! u = Some p → h_ref p = 0).
  Proof.
    intros Hl Hr Hs Ht. apply reachable_inv in Hr as I. assert (inv s') as I' by (by eapply step_inv).
    simpl in Hs. unfold step_thread, on_entry in Hs. rewrite Ht, (inv_alive s t _ I Ht) in Hs by (simpl; lia). simplify_eq.
    assert (msum h_new (thr s) = 0) as Hz.
    { apply msum_zero. intros u p Hu. assert (p = CDel ∨ p ≠ CDel) as [->|] by (destruct p; auto).
      - assert (u = t) as -> by (eapply (owner_only s t DDel u CDel); done). congruence.
      - by destruct p. }
    pose proof (i_del _ I) as Hd. pose proof (msum_ge h_del _ _ _ Ht) as Hge. simpl in Hge. rewrite Hz in Hd. simpl.
    split; [case_bool_decide; lia|]. intros E0. assert (ref s ≤ 0)%Z as R0 by (case_bool_decide; lia).
    pose proof (i_ref _ I') as Hf. simpl in Hf. split; [lia|]. intros u p Hu. pose proof (msum_ge h_ref _ _ _ Hu). lia.
  Qed.
  (** Some thread can always go on. *)
  Theorem C55_progress s b : reachable s → thr s ≠ ∅ → ∃ t s', step lck s (LStep t b) = Next s'.
  Proof.
    intros Hr Hne. apply reachable_inv in Hr as I.
    assert (∀ t p, thr s !! t = Some p → (lck = true → locked p = false → owner s = None) → ∃ s', step lck s (LStep t b) = Next s') as Hgo.
    { intros t p Ht Ho. simpl. unfold step_thread, acquire, release, on_entry. rewrite Ht.
      destruct p; rewrite ?(inv_alive s t _ I Ht) by (simpl; lia); try (by eauto); try (destruct lck; [rewrite Ho by done|]; by eauto).
      destruct b; by eauto. }
    destruct (owner s) as [t|] eqn:Eo.
    - assert (lck = true ∨ lck = false) as [Hl|Hl] by (destruct lck; auto).
      + apply (i_owner _ I Hl) in Eo as (p & Ht & Hp). exists t. eapply Hgo; [done|]. congruence.
      + destruct (map_choose _ Hne) as (u & p & Hu). exists u. eapply Hgo; [done|]. congruence.
    - destruct (map_choose _ Hne) as (u & p & Hu). exists u. by eapply Hgo.
  Qed.
End proofs.

(** With no_locking two threads may access the plain counter at once: one
    destroys the last flyweight while another makes a new one. *)
Definition s0 (b : outcome) : list label := [LStart 1 ONew] ++ replicate 7 (LStep 1 b).
Definition racing : list label := s0 Fine ++ [LStart 1 ODestroy; LStart 2 ONew; LStep 1 Fine; LStep 1 Fine] ++ replicate 4 (LStep 2 Fine).
Theorem C55_race_refuted : ∃ ls s, run false init ls = Next s ∧ race s.
Proof.
  exists racing. eexists. split; [by vm_compute|]. exists 1, 2, DDel, CDel. split_and!; [lia|by vm_compute..].
Qed.
(** The same schedule with simple_locking: the second thread waits. *)
Example C55_case : ∃ s, run true init racing = Next s ∧ thr s !! 1 = Some DDel ∧ thr s !! 2 = Some CLock ∧ del s = 1%Z ∧ alive s = true.
Proof. eexists. split; [by vm_compute|]. vm_compute. split_and!; reflexivity. Qed.
Example C55_quiet : ∃ s, run true init (s0 Fine ++ [LStart 1 OCopy; LStep 1 Fine; LStep 1 Fine]) = Next s ∧ thr s !! 1 = None ∧ objs s = 2 ∧
  inner s = 2%Z ∧ ref s = 2%Z ∧ del s = 1%Z.
Proof. eexists. split; [by vm_compute|]. vm_compute. split_and!; reflexivity. Qed.
Example C55_collected_case : ∃ s s', run true init (s0 Fine ++ [LStart 1 ODestroy] ++ replicate 7 (LStep 1 Fine)) = Next s ∧
  alive s = true ∧ objs s = 0 ∧ thr s !! 1 = None ∧ step true s LGc = Next s' ∧ alive s' = false.
Proof. do 2 eexists. split; [by vm_compute|]. split; [done|]. split; [done|]. split; [done|]. by vm_compute. Qed.
Example C55_throw_case : ∃ s, run true init ([LStart 1 ONew; LStep 1 Fine; LStep 1 FailValue; LStep 1 Fine]) = Next s ∧
  alive s = true ∧ objs s = 0 ∧ thr s !! 1 = None ∧ owner s = None.
Proof. eexists. split; [by vm_compute|]. vm_compute. split_and!; reflexivity. Qed.

Print Assumptions C55_safe.
Print Assumptions C55_no_race.
Print Assumptions C55_kept.
Print Assumptions C55_collected.
Print Assumptions C55_counters.
Print Assumptions C55_last_deleter.
Print Assumptions C55_progress.
Print Assumptions C55_race_refuted.
