(** Invariant of the machine of [Core.v] and its preservation. *)
From Verif Require Export Core.

(** Laws a value policy must satisfy (proved for the three policies of the
    library in [Policies.v]).  [good] is an arbitrary property of reps. *)
Record policy_ok {K A R V} (eqv : K → K → bool) (good : R → Prop) (P : policy K A R V) : Prop := {
  po_make : ∀ p ks r, p_make P p ks = Some r → good r ∧ ∀ a, occ a (p_kids P r) = occ a ks;
  po_build : ∀ p ks r, p_make P p ks = Some r → p_val P r = None →
    is_Some (p_val P (p_build P p r)) ∧ good (p_build P p r) ∧
    eqv (p_key P (p_build P p r)) (p_key P r) = true ∧
    ∀ a, occ a (p_kids P (p_build P p r)) = occ a (p_kids P r);
}.

Definition at_ (a h : addr) : nat := if decide (a = h) then 1 else 0.
Lemma at_eq a : at_ a a = 1.
Proof. unfold at_. by rewrite decide_True. Qed.
Lemma at_ne a b : a ≠ b → at_ a b = 0.
Proof. intros. unfold at_. by rewrite decide_False. Qed.

Section Inv.
  Context {K A R V : Type}.
  Context (P : policy K A R V) (FS : factory K) (cfg : config).
  Context (eqv : K → K → bool) (good : R → Prop).
  Context (Heq : equivalence eqv) (HP : policy_ok eqv good P) (HF : factory_spec eqv FS).
  Context (t0 : tid).

  Notation state := (state (R:=R) (K:=K) (A:=A) FS).
  Notation instr := (instr (K:=K) (A:=A) (R:=R)).
  Notation node := (node (R:=R)).
  Notation kview := (kview P).
  Implicit Types (s : state) (n m : node) (a b h : addr) (t : tid) (i : instr).

  (** handles to [a] owned by an instruction (temporaries, objects being
      built or destroyed) *)
  Definition own (a : addr) (i : instr) : nat :=
    match i with
    | ILockFind _ _ r | IFind _ _ r => occ a (p_kids P r)
    | IVisit _ _ _ ks _ | IAddRef _ _ ks _ => occ a ks
    | IAddDel _ h ks _ => at_ a h + occ a ks
    | IRelease h | IBind _ h _ => at_ a h
    | _ => 0
    end.
  Definition pend (a : addr) (i : instr) : nat :=
    match i with ILockCheck h | ICheck h => at_ a h | _ => 0 end.
  Definition pin (a : addr) (i : instr) : nat :=
    match i with IVisit _ h _ _ _ | IAddRef _ h _ _ | IAddDel _ h _ _ => at_ a h | _ => 0 end.
  Definition addel (a : addr) (i : instr) : nat :=
    match i with IAddDel _ h _ _ => at_ a h | _ => 0 end.
  Definition freeing (a : addr) (i : instr) : nat :=
    match i with IFree h => at_ a h | _ => 0 end.
  Definition making (x : var) (i : instr) : nat :=
    match i with
    | ILockFind y _ _ | IFind y _ _ | IVisit y _ _ _ _ | IAddRef y _ _ _ | IAddDel y _ _ _
    | IBind y _ _ | IAbort y => at_ x y
    | _ => 0
    end.
  (** instructions executed with the lock held, each standing for one pending
      unlock *)
  Definition ulk (i : instr) : nat :=
    match i with
    | IFind _ _ _ | IVisit _ _ _ _ _ | IAddRef _ _ _ _ | IAddDel _ _ _ _ | IUnlock | ICheck _ => 1
    | _ => 0
    end.
  Definition simple (i : instr) : Prop :=
    match i with
    | IUnlock | IRelease _ | IFree _ | IBind _ _ _ | IAbort _ => True
    | _ => False
    end.

  Definition ncount (a : addr) (n : node) : nat :=
    if n_linked n then occ a (p_kids P (n_rep n)) else 0.
  Definition vcount (a : addr) (o : option addr) : nat :=
    match o with Some h => at_ a h | None => 0 end.

  Definition tsum (f : instr → nat) (s : state) : nat := msum (lsum f) (stacks s).
  Definition vsum (a : addr) (s : state) : nat := msum (vcount a) (vars s).
  Definition hsum (a : addr) (s : state) : nat := msum (ncount a) (heap s).
  (** number of handles (flyweight objects) referring to entry [a] *)
  Definition cnt (s : state) (a : addr) : nat := vsum a s + hsum a s + tsum (own a) s.

  Definition linked_set (s : state) : gset addr :=
    dom (filter (λ kn : addr * node, n_linked kn.2 = true) (heap s)).

  (** *** heap / container part *)
  Record InvH (s : state) : Prop := {
    i_fac : fi_inv HF (cont s) (kview s) (linked_set s);
    i_uniq : ∀ a b n m, entry s a = Some n → entry s b = Some m →
      eqv (p_key P (n_rep n)) (p_key P (n_rep m)) = true → a = b;
    i_good : ∀ a n, entry s a = Some n → good (n_rep n);
    i_clock : ∀ a n, entry s a = Some n → n_stamp n < clock s;
    i_stamp : ∀ a n b m, entry s a = Some n → b ∈ p_kids P (n_rep n) →
      entry s b = Some m → n_stamp m < n_stamp n;
  }.

  (** *** counting part *)
  Definition head_ok (s : state) (i : instr) : Prop :=
    match i with
    | IVisit x h p ks k => ∃ n, entry s h = Some n ∧ eqv (p_key P (n_rep n)) k = true ∧
        (p_val P (n_rep n) = None → ∃ ks', p_make P p ks' = Some (n_rep n))
    | IAddRef x h ks k | IAddDel x h ks k =>
        ∃ n, entry s h = Some n ∧ eqv (p_key P (n_rep n)) k = true ∧ is_Some (p_val P (n_rep n))
    | ILockFind x p r | IFind x p r => ∃ ks, p_make P p ks = Some r
    | _ => True
    end.
  Definition bind_ok (s : state) (i : instr) : Prop :=
    match i with
    | IBind x h k => ∃ n, entry s h = Some n ∧ eqv (p_key P (n_rep n)) k = true
    | _ => True
    end.
  Definition trk_ok (s : state) (i : instr) : Prop :=
    match i with
    | IAddDel _ _ _ _ | ILockCheck _ | ICheck _ => trk cfg = true
    | _ => True
    end.

  Record InvC (s : state) : Prop := {
    i_hnd : ∀ a, 0 < cnt s a → ∃ n, entry s a = Some n ∧ is_Some (p_val P (n_rep n));
    i_ref : trk cfg = true → ∀ a n, entry s a = Some n → n_ref n = Z.of_nat (cnt s a);
    i_del : trk cfg = true → ∀ a n, entry s a = Some n →
      (n_del n + Z.of_nat (tsum (addel a) s))%Z =
      Z.of_nat (b2n (bool_decide (0 < cnt s a)) + tsum (pend a) s);
    i_why : trk cfg = true → ∀ a n, entry s a = Some n →
      0 < cnt s a ∨ 0 < tsum (pend a) s ∨ 0 < tsum (pin a) s;
    i_pend : ∀ a, 0 < tsum (pend a) s → ∃ n, entry s a = Some n ∧ is_Some (p_val P (n_rep n));
    i_head : ∀ t i rest, stack s t = i :: rest → head_ok s i;
    i_bind : ∀ t i, i ∈ stack s t → bind_ok s i;
    i_trk : ∀ t i, i ∈ stack s t → trk_ok s i;
    i_undone : ∀ a n, entry s a = Some n → p_val P (n_rep n) = None →
      cnt s a = 0 ∧ tsum (pend a) s = 0 ∧
      ∃ t x p ks k rest, stack s t = IVisit x a p ks k :: rest;
    i_free : ∀ a, tsum (freeing a) s =
      match heap s !! a with Some n => b2n (negb (n_linked n)) | None => 0 end;
  }.

  (** *** stacks, lock and variables *)
  Record InvS (s : state) : Prop := {
    i_tail : ∀ t i rest, stack s t = i :: rest → Forall simple rest;
    i_lock : lck cfg = true →
      match lock s with
      | None => ∀ t, lsum ulk (stack s t) = 0
      | Some (t, n) => 0 < n ∧ lsum ulk (stack s t) = n ∧ ∀ t', t' ≠ t → lsum ulk (stack s t') = 0
      end;
    i_solo : lck cfg = false → ∀ t, t ≠ t0 → stack s t = [];
    i_vars : ∀ x, tsum (making x) s = match vars s !! x with Some None => 1 | _ => 0 end;
  }.

  Record Inv (s : state) : Prop := { i_H : InvH s; i_C : InvC s; i_S : InvS s }.

  (** ** Elementary facts *)
  Lemma elem_of_linked s a : a ∈ linked_set s ↔ ∃ n, entry s a = Some n.
  Proof.
    unfold linked_set, entry. rewrite elem_of_dom. split.
    - intros [n Hn]. apply map_filter_lookup_Some in Hn as [Hn Hl]. simpl in Hl.
      exists n. by rewrite Hn, Hl.
    - intros [n Hn]. destruct (heap s !! a) as [m|] eqn:E; [|done].
      destruct (n_linked m) eqn:El; [|done]. exists m.
      apply map_filter_lookup_Some. done.
  Qed.
  Lemma entry_heap s a n : entry s a = Some n ↔ heap s !! a = Some n ∧ n_linked n = true.
  Proof.
    unfold entry. destruct (heap s !! a) as [m|]; [|split; [done|by intros [??]]].
    destruct (n_linked m) eqn:El; split; intros; simplify_eq; [done| |].
    - destruct H; simplify_eq. done.
    - destruct H; simplify_eq. congruence.
  Qed.
  Lemma kview_entry s a n : entry s a = Some n → kview s a = Some (p_key P (n_rep n)).
  Proof. intros H. unfold kview. by rewrite H. Qed.
  Lemma kview_inv s a k : kview s a = Some k → ∃ n, entry s a = Some n ∧ k = p_key P (n_rep n).
  Proof. unfold kview. destruct (entry s a); naive_solver. Qed.

  Lemma stack_set s t k t' :
    stack (set_stack t k s) t' = if decide (t' = t) then k else stack s t'.
  Proof.
    unfold stack, set_stack; simpl. case_decide; subst.
    - by rewrite lookup_insert.
    - by rewrite lookup_insert_ne.
  Qed.
  Lemma tsum_set f s t k :
    tsum f (set_stack t k s) + lsum f (stack s t) = tsum f s + lsum f k.
  Proof.
    unfold tsum, stack, set_stack; simpl. destruct (stacks s !! t) as [k0|] eqn:E; simpl.
    - by apply msum_upd.
    - rewrite msum_new by done. rewrite lsum_nil. lia.
  Qed.
  Lemma tsum_ge f s t : lsum f (stack s t) ≤ tsum f s.
  Proof.
    unfold tsum, stack. destruct (stacks s !! t) as [k0|] eqn:E; simpl.
    - by eapply msum_ge in E.
    - rewrite lsum_nil. lia.
  Qed.
  Lemma tsum_pos f s : 0 < tsum f s → ∃ t i, i ∈ stack s t ∧ 0 < f i.
  Proof.
    unfold tsum. intros (t&k&Hk&Hp)%msum_pos. apply lsum_pos in Hp as (i&?&?).
    exists t, i. unfold stack. rewrite Hk. done.
  Qed.
  Lemma tsum_elem f s t i : i ∈ stack s t → f i ≤ tsum f s.
  Proof. intros H. pose proof (tsum_ge f s t). pose proof (lsum_elem f i _ H). lia. Qed.

  Lemma lsum_release (f : instr → nat) ks : (∀ a, f (IRelease a) = 0) → lsum f (map IRelease ks) = 0.
  Proof. intros H. induction ks; [done|]. simpl. rewrite lsum_cons, H. lia. Qed.
  Lemma lsum_own_release a ks : lsum (own a) (map IRelease ks) = occ a ks.
  Proof. induction ks; [done|]. simpl. rewrite lsum_cons, IHks, occ_cons. done. Qed.

  (** at most one thread is inside a critical section *)
  Lemma excl s t1 t2 : InvS s →
    0 < lsum ulk (stack s t1) → 0 < lsum ulk (stack s t2) → t1 = t2.
  Proof.
    intros HS H1 H2. destruct (lck cfg) eqn:El.
    - pose proof (i_lock _ HS El) as HL. destruct (lock s) as [[t n]|].
      + destruct HL as (_&_&HL).
        destruct (decide (t1 = t)); [|rewrite HL in H1 by done; lia].
        destruct (decide (t2 = t)); [|rewrite HL in H2 by done; lia]. congruence.
      + rewrite HL in H1. lia.
    - pose proof (i_solo _ HS El) as HL.
      destruct (decide (t1 = t0)); [|rewrite HL in H1 by done; rewrite lsum_nil in H1; lia].
      destruct (decide (t2 = t0)); [|rewrite HL in H2 by done; rewrite lsum_nil in H2; lia].
      congruence.
  Qed.

  (** a non-simple instruction can only be at the head of a stack *)
  Lemma head_of s t i : InvS s → i ∈ stack s t → ¬ simple i → ∃ rest, stack s t = i :: rest.
  Proof.
    intros HS Hi Hn. destruct (stack s t) as [|j rest] eqn:E; [by apply elem_of_nil in Hi|].
    apply elem_of_cons in Hi as [->|Hi]; [by eauto|].
    pose proof (i_tail _ HS _ _ _ E) as HT. rewrite Forall_forall in HT. by apply HT in Hi.
  Qed.

  (** while thread [t] is critical, no other thread pins anything *)
  Lemma pin_only s t i rest a : InvS s → stack s t = i :: rest → ulk i = 1 →
    tsum (pin a) s = pin a i.
  Proof.
    intros HS Hst Hu.
    assert (Hge : pin a i ≤ tsum (pin a) s).
    { apply (tsum_elem _ _ t). rewrite Hst. set_solver. }
    pose proof (tsum_set (pin a) s t rest) as Hset. rewrite Hst, lsum_cons in Hset.
    assert (Hz : lsum (pin a) rest = 0).
    { pose proof (i_tail _ HS _ _ _ Hst) as HT.
      destruct (lsum (pin a) rest) eqn:E; [done|].
      destruct (proj1 (lsum_pos (pin a) rest)) as (j&Hj&Hp); [lia|].
      rewrite Forall_forall in HT. apply HT in Hj. destruct j; simpl in *; lia. }
    assert (tsum (pin a) (set_stack t rest s) = 0); [|lia].
    destruct (tsum (pin a) (set_stack t rest s)) eqn:E; [done|].
    destruct (tsum_pos (pin a) (set_stack t rest s)) as (t'&j&Hj&Hp); [lia|].
    rewrite stack_set in Hj. case_decide.
    - pose proof (lsum_elem (pin a) _ _ Hj). lia.
    - assert (Hju : 0 < ulk j) by (destruct j; simpl in *; lia).
      exfalso. apply H. apply (excl s); [done| |].
      + pose proof (lsum_elem ulk _ _ Hj). lia.
      + rewrite Hst, lsum_cons. lia.
  Qed.
  Lemma addel_le_pin a i : addel a i ≤ pin a i.
  Proof. destruct i; simpl; lia. Qed.
  Lemma addel_only s t i rest a : InvS s → stack s t = i :: rest → ulk i = 1 →
    tsum (addel a) s = addel a i.
  Proof.
    intros HS Hst Hu.
    assert (Hge : addel a i ≤ tsum (addel a) s).
    { apply (tsum_elem _ _ t). rewrite Hst. set_solver. }
    pose proof (tsum_set (addel a) s t rest) as Hset. rewrite Hst, lsum_cons in Hset.
    assert (Hz : lsum (addel a) rest = 0).
    { pose proof (i_tail _ HS _ _ _ Hst) as HT.
      destruct (lsum (addel a) rest) eqn:E; [done|].
      destruct (proj1 (lsum_pos (addel a) rest)) as (j&Hj&Hp); [lia|].
      rewrite Forall_forall in HT. apply HT in Hj. destruct j; simpl in *; lia. }
    assert (tsum (addel a) (set_stack t rest s) = 0); [|lia].
    destruct (tsum (addel a) (set_stack t rest s)) eqn:E; [done|].
    destruct (tsum_pos (addel a) (set_stack t rest s)) as (t'&j&Hj&Hp); [lia|].
    rewrite stack_set in Hj. case_decide.
    - pose proof (lsum_elem (addel a) _ _ Hj). lia.
    - assert (Hju : 0 < ulk j) by (destruct j; simpl in *; lia).
      exfalso. apply H. apply (excl s); [done| |].
      + pose proof (lsum_elem ulk _ _ Hj). lia.
      + rewrite Hst, lsum_cons. lia.
  Qed.

  (** ** Preservation of the heap part *)
  Definition same_shape (s s' : state) : Prop :=
    (∀ a n, entry s a = Some n → ∃ m, entry s' a = Some m ∧ n_rep m = n_rep n ∧ n_stamp m = n_stamp n) ∧
    (∀ a m, entry s' a = Some m → ∃ n, entry s a = Some n ∧ n_rep m = n_rep n ∧ n_stamp m = n_stamp n).

  Lemma same_shape_linked s s' : same_shape s s' → linked_set s' = linked_set s.
  Proof.
    intros [H1 H2]. apply set_eq. intros a. rewrite !elem_of_linked. naive_solver.
  Qed.

  Lemma InvH_shape s s' : same_shape s s' → cont s' = cont s → clock s' = clock s →
    InvH s → InvH s'.
  Proof.
    intros Hsh Hc Hk [F U G C S]. pose proof (same_shape_linked _ _ Hsh) as HL.
    destruct Hsh as [H1 H2]. split.
    - rewrite Hc, HL. eapply fi_view; [done|]. intros a k Ha Hka.
      apply kview_inv in Hka as (n&Hn&->). destruct (H1 _ _ Hn) as (m&Hm&Hr&_).
      exists (p_key P (n_rep m)). split; [by apply kview_entry|]. rewrite Hr. by apply (eqv_refl _ Heq).
    - intros a b n m Ha Hb He. destruct (H2 _ _ Ha) as (n'&?&Hr&_). destruct (H2 _ _ Hb) as (m'&?&Hr'&_).
      eapply U; [done|done|]. congruence.
    - intros a n Ha. destruct (H2 _ _ Ha) as (n'&?&Hr&_). rewrite Hr. eauto.
    - intros a n Ha. destruct (H2 _ _ Ha) as (n'&?&_&Hr). rewrite Hr, Hk. eauto.
    - intros a n b m Ha Hb Hm. destruct (H2 _ _ Ha) as (n'&?&Hr&Hs).
      destruct (H2 _ _ Hm) as (m'&?&Hr'&Hs'). rewrite Hs, Hs'. rewrite Hr in Hb. eauto.
  Qed.

  (** same heap *)
  Lemma same_shape_heap s s' : heap s' = heap s → same_shape s s'.
  Proof. intros H. unfold same_shape, entry. rewrite H. naive_solver. Qed.
  Lemma entry_put s h n a :
    entry (put h n s) a = if decide (a = h) then (if n_linked n then Some n else None) else entry s a.
  Proof.
    unfold entry, put; simpl. case_decide; subst.
    - by rewrite lookup_insert.
    - by rewrite lookup_insert_ne.
  Qed.
  Lemma same_shape_put s h n n' : entry s h = Some n →
    n_rep n' = n_rep n → n_linked n' = true → n_stamp n' = n_stamp n → same_shape s (put h n' s).
  Proof.
    intros Hn Hr Hl Hs. split; intros a m; rewrite entry_put, Hl.
    - intros Ha. case_decide; subst; [|by eauto]. rewrite Hn in Ha. simplify_eq. eauto.
    - case_decide; subst; [|by eauto]. intros ?; simplify_eq. eauto.
  Qed.
  Lemma same_shape_trans s1 s2 s3 : same_shape s1 s2 → same_shape s2 s3 → same_shape s1 s3.
  Proof.
    intros [A1 A2] [B1 B2]. split.
    - intros a n H. destruct (A1 _ _ H) as (m&Hm&?&?). destruct (B1 _ _ Hm) as (l&Hl&?&?).
      exists l. split_and!; congruence.
    - intros a n H. destruct (B2 _ _ H) as (m&Hm&?&?). destruct (A2 _ _ Hm) as (l&Hl&?&?).
      exists l. split_and!; congruence.
  Qed.

  Lemma InvH_alloc s a r :
    InvH s → heap s !! a = None → good r →
    (∀ b n, entry s b = Some n → eqv (p_key P (n_rep n)) (p_key P r) = false) →
    (∀ b, b ∈ p_kids P r → ∃ m, entry s b = Some m) →
    (∀ c n, entry s c = Some n → a ∉ p_kids P (n_rep n)) →
    let s1 := put a (Node r 0 0 true (clock s)) s in
    InvH (set_clock (S (clock s)) (set_cont (f_link FS (cont s) (kview s1) a) s1)).
  Proof.
    intros [F U G C S] Ha Hg Hnf Hkids Hnk s1.
    assert (Hna : entry s a = None) by (unfold entry; by rewrite Ha).
    assert (He : ∀ b, entry s1 b = if decide (b = a) then Some (Node r 0 0 true (clock s)) else entry s b).
    { intros b. unfold s1. rewrite entry_put. done. }
    set (s2 := set_clock _ _).
    assert (He2 : ∀ b, entry s2 b = entry s1 b) by done.
    assert (Hal : a ∉ linked_set s).
    { rewrite elem_of_linked. intros [n Hn]. congruence. }
    assert (HL : linked_set s2 = {[a]} ∪ linked_set s).
    { apply set_eq. intros b. rewrite elem_of_union, elem_of_singleton, !elem_of_linked.
      setoid_rewrite He2. setoid_rewrite He. case_decide; subst; [naive_solver|].
      split; [naive_solver|]. intros [?|?]; [done|]. done. }
    split.
    - rewrite HL. change (kview s2) with (kview s1). simpl.
      assert (F1 : fi_inv HF (cont s) (kview s1) (linked_set s)).
      { eapply fi_view; [done|]. intros b k Hb Hk. exists k.
        apply kview_inv in Hk as (n&Hn&->).
        split; [|by apply (eqv_refl _ Heq)]. apply kview_entry. rewrite He.
        rewrite decide_False by congruence. done. }
      eapply fi_link; [done|done| |].
      + apply kview_entry. rewrite He. by rewrite decide_True.
      + simpl. intros b k' Hb Hk'. apply kview_inv in Hk' as (n&Hn&->). rewrite He in Hn.
        rewrite decide_False in Hn by congruence. eauto.
    - intros b c n m. rewrite !He2, !He. case_decide; case_decide; subst; intros Hb Hc E; simplify_eq; simpl in *; try done.
      + exfalso. apply (eqv_sym _ Heq) in E. rewrite (Hnf _ _ Hc) in E. done.
      + exfalso. rewrite (Hnf _ _ Hb) in E. done.
      + eauto.
    - intros b n. rewrite He2, He. case_decide; intros; simplify_eq; eauto.
    - intros b n. rewrite He2, He. simpl. case_decide; intros; simplify_eq; simpl; [lia|].
      apply C in H0. lia.
    - intros b n c m. rewrite !He2, !He. case_decide; case_decide; subst; intros Hb Hc Hm; simplify_eq; simpl in *.
      + apply Hkids in Hc as [? Hc]. congruence.
      + eauto.
      + exfalso. eapply Hnk; done.
      + eauto.
  Qed.

  Lemma InvH_build s h n r :
    InvH s → entry s h = Some n → good r → eqv (p_key P r) (p_key P (n_rep n)) = true →
    (∀ a, occ a (p_kids P r) = occ a (p_kids P (n_rep n))) →
    InvH (put h (with_rep n r) s).
  Proof.
    intros [F U G C S] Hn Hg Hk Hkids.
    assert (Hlk : n_linked n = true) by (by apply entry_heap in Hn as [_ ?]).
    set (s1 := put h (with_rep n r) s).
    assert (He : ∀ b, entry s1 b = if decide (b = h) then Some (with_rep n r) else entry s b).
    { intros b. unfold s1. rewrite entry_put. simpl. by rewrite Hlk. }
    assert (HL : linked_set s1 = linked_set s).
    { apply set_eq. intros b. rewrite !elem_of_linked. setoid_rewrite He.
      case_decide; subst; naive_solver. }
    split.
    - rewrite HL. simpl. eapply fi_view; [exact F|]. intros b k Hb Hkb.
      apply kview_inv in Hkb as (m&Hm&->). destruct (decide (b = h)) as [->|Hne].
      + exists (p_key P r). rewrite Hn in Hm. simplify_eq. split; [|done].
        erewrite kview_entry; [|by rewrite He, decide_True]. done.
      + exists (p_key P (n_rep m)). split; [|by apply (eqv_refl _ Heq)].
        apply kview_entry. by rewrite He, decide_False.
    - intros b c n1 m1. rewrite !He.
      case_decide; case_decide; subst; intros Hb Hc E; simplify_eq; simpl in *; try done; try by eauto.
      + eapply U; [exact Hn|done|]. eapply (eqv_trans _ Heq); [|exact E]. by apply (eqv_sym _ Heq).
      + eapply U; [done|exact Hn|]. eapply (eqv_trans _ Heq); done.
    - intros b n1. rewrite He. case_decide; intros; simplify_eq; eauto.
    - intros b n1. rewrite He. simpl. case_decide; intros; simplify_eq; simpl; eauto.
    - assert (Hin : ∀ a, a ∈ p_kids P r → a ∈ p_kids P (n_rep n)).
      { intros a Ha. apply occ_pos. rewrite <- Hkids. by apply occ_pos. }
      intros b n1 c m1. rewrite !He.
      case_decide; case_decide; subst; intros Hb Hc Hm; simplify_eq; simpl in *; eauto.
  Qed.

  Lemma InvH_erase s h n n1 :
    InvH s → entry s h = Some n →
    InvH (set_cont (f_unlink FS (cont s) (kview s) h) (put h (unlinked n1) s)).
  Proof.
    intros [F U G C S] Hn. set (s1 := set_cont _ _).
    assert (He : ∀ b, entry s1 b = if decide (b = h) then None else entry s b).
    { intros b. unfold s1. change (entry (put h (unlinked n1) s) b =
        if decide (b = h) then None else entry s b). rewrite entry_put. done. }
    assert (HL : linked_set s1 = linked_set s ∖ {[h]}).
    { apply set_eq. intros b. rewrite elem_of_difference, elem_of_singleton, !elem_of_linked.
      setoid_rewrite He. case_decide; subst; naive_solver. }
    split.
    - rewrite HL. unfold s1 at 1. simpl. eapply (fi_view _ _ HF _ (kview s)).
      + apply fi_unlink; [done|]. apply elem_of_linked. eauto.
      + intros b k Hb Hk. exists k. split; [|by apply (eqv_refl _ Heq)].
        apply kview_inv in Hk as (m&Hm&->). apply kview_entry. rewrite He.
        rewrite decide_False; [done|]. set_solver.
    - intros b c n2 m2. rewrite !He. case_decide; case_decide; intros; simplify_eq. eauto.
    - intros b n2. rewrite He. case_decide; intros; simplify_eq; eauto.
    - intros b n2. rewrite He. case_decide; intros; simplify_eq; eauto.
    - intros b n2 c m2. rewrite !He. case_decide; case_decide; intros; simplify_eq; eauto.
  Qed.

  (** ** Preservation of the stack part *)
  Definition tail_ok (k : list instr) : Prop :=
    match k with [] => True | _ :: r => Forall simple r end.

  Lemma InvS_same s s' t new :
    InvS s → (lck cfg = false → t = t0) →
    (∀ t', stack s' t' = if decide (t' = t) then new else stack s t') →
    tail_ok new → lock s' = lock s →
    (lck cfg = true → lsum ulk new = lsum ulk (stack s t)) →
    (∀ x, tsum (making x) s' = match vars s' !! x with Some None => 1 | _ => 0 end) →
    InvS s'.
  Proof.
    intros [T L O Va] Ht Hst Htl Hl Hu Hv. split.
    - intros t' i rest. rewrite Hst. case_decide; [|by apply T].
      intros ->. done.
    - intros El. specialize (L El). rewrite Hl. destruct (lock s) as [[t1 n]|].
      + destruct L as (?&L1&L2). split; [done|]. split.
        * rewrite Hst. case_decide; subst; [by rewrite Hu|done].
        * intros t' Hne. rewrite Hst. case_decide; subst; [|by apply L2].
          rewrite Hu by done. by apply L2.
      + intros t'. rewrite Hst. case_decide; [|done]. rewrite Hu by done. apply L.
    - intros El t' Hne. rewrite Hst. case_decide; [|by apply O]. subst. by rewrite Ht in Hne.
    - done.
  Qed.

  Lemma InvS_acquire s s1 s' t new :
    InvS s → (lck cfg = false → t = t0) → acquire FS cfg s t = Some s1 →
    (∀ t', stack s' t' = if decide (t' = t) then new else stack s t') →
    tail_ok new → lock s' = lock s1 →
    lsum ulk new = S (lsum ulk (stack s t)) →
    (∀ x, tsum (making x) s' = match vars s' !! x with Some None => 1 | _ => 0 end) →
    InvS s'.
  Proof.
    intros HS Ht Ha Hst Htl Hl Hu Hv. destruct (lck cfg) eqn:El.
    2:{ eapply InvS_same; try eassumption; try (intros; congruence); [by auto|].
        unfold acquire in Ha. rewrite El in Ha. congruence. }
    destruct HS as [T L O Va]. specialize (L El). unfold acquire in Ha. rewrite El in Ha.
    split; [| |congruence|done].
    - intros t' i rest. rewrite Hst. case_decide; [|by apply T]. intros ->. done.
    - intros _. rewrite Hl. destruct (lock s) as [[t1 n]|].
      + case_decide; [|done]. simplify_eq. simpl. destruct L as (?&L1&L2).
        split; [lia|]. split.
        * rewrite Hst, decide_True by done. lia.
        * intros t' Hne. rewrite Hst, decide_False by done. auto.
      + simplify_eq. simpl. split; [lia|]. split.
        * rewrite Hst, decide_True by done. rewrite Hu, L. done.
        * intros t' Hne. rewrite Hst, decide_False by done. auto.
  Qed.

  Lemma InvS_unlock s s1 s' t new :
    InvS s → (lck cfg = false → t = t0) → unlock FS cfg s t = Some s1 →
    (∀ t', stack s' t' = if decide (t' = t) then new else stack s t') →
    tail_ok new → lock s' = lock s1 →
    lsum ulk (stack s t) = S (lsum ulk new) →
    (∀ x, tsum (making x) s' = match vars s' !! x with Some None => 1 | _ => 0 end) →
    InvS s'.
  Proof.
    intros HS Ht Ha Hst Htl Hl Hu Hv. destruct (lck cfg) eqn:El.
    2:{ eapply InvS_same; try eassumption; try (intros; congruence); [by auto|].
        unfold unlock in Ha. rewrite El in Ha. congruence. }
    destruct HS as [T L O Va]. specialize (L El). unfold unlock in Ha. rewrite El in Ha.
    split; [| |congruence|done].
    - intros t' i rest. rewrite Hst. case_decide; [|by apply T]. intros ->. done.
    - intros _. rewrite Hl. destruct (lock s) as [[t1 n]|]; [|done].
      destruct n as [|n]; [done|]. case_decide; [|done]. simplify_eq. simpl.
      destruct L as (?&L1&L2). case_decide; subst.
      + intros t'. rewrite Hst. case_decide; [lia|]. auto.
      + split; [lia|]. split.
        * rewrite Hst, decide_True by done. lia.
        * intros t' Hne. rewrite Hst, decide_False by done. auto.
  Qed.

  Lemma unlock_ok s t : InvS s → 0 < lsum ulk (stack s t) → ∃ s1, unlock FS cfg s t = Some s1.
  Proof.
    intros HS Hu. unfold unlock. destruct (lck cfg) eqn:El; [|by eauto].
    pose proof (i_lock _ HS El) as L. destruct (lock s) as [[t1 n]|].
    - destruct L as (?&L1&L2). destruct n as [|n]; [lia|].
      case_decide; [by eauto|]. rewrite L2 in Hu by done. lia.
    - rewrite L in Hu. lia.
  Qed.

  (** ** Preservation of the counting part *)
  Notation done_node n := (is_Some (p_val P (n_rep n))).

  Lemma head_ok_shape s s' i : same_shape s s' → head_ok s i → head_ok s' i.
  Proof.
    intros [H1 _] H. destruct i; simpl in *; try done.
    all: destruct H as (n&Hn&Hr); destruct (H1 _ _ Hn) as (m&Hm&Hmr&_); exists m; by rewrite Hmr.
  Qed.
  Lemma bind_ok_shape s s' i : same_shape s s' → bind_ok s i → bind_ok s' i.
  Proof.
    intros [H1 _] H. destruct i; simpl in *; try done.
    destruct H as (n&Hn&Hr); destruct (H1 _ _ Hn) as (m&Hm&Hmr&_); exists m; by rewrite Hmr.
  Qed.

  Definition new_ok (s : state) (old new : list instr) : Prop :=
    match new with [] => True | i :: _ => head_ok s i end ∧
    ∀ i, i ∈ new → i ∈ old ∨ (bind_ok s i ∧ trk_ok s i).

  Lemma C_shape s s' t new :
    InvC s → same_shape s s' →
    (∀ t', stack s' t' = if decide (t' = t) then new else stack s t') →
    new_ok s (stack s t) new →
    (∀ a, 0 < cnt s' a → 0 < cnt s a ∨ ∃ n, entry s a = Some n ∧ done_node n) →
    (∀ a, 0 < tsum (pend a) s' → 0 < tsum (pend a) s ∨ ∃ n, entry s a = Some n ∧ done_node n) →
    (trk cfg = true → ∀ a n, entry s' a = Some n → n_ref n = Z.of_nat (cnt s' a)) →
    (trk cfg = true → ∀ a n, entry s' a = Some n →
      (n_del n + Z.of_nat (tsum (addel a) s'))%Z =
      Z.of_nat (b2n (bool_decide (0 < cnt s' a)) + tsum (pend a) s')) →
    (trk cfg = true → ∀ a n, entry s' a = Some n →
      0 < cnt s' a ∨ 0 < tsum (pend a) s' ∨ 0 < tsum (pin a) s') →
    (∀ a n, entry s a = Some n → p_val P (n_rep n) = None →
       cnt s a = 0 → tsum (pend a) s = 0 → cnt s' a = 0 ∧ tsum (pend a) s' = 0) →
    (∀ x a p ks k rest n, stack s t = IVisit x a p ks k :: rest → entry s a = Some n → done_node n) →
    (∀ a, tsum (freeing a) s' =
      match heap s' !! a with Some n => b2n (negb (n_linked n)) | None => 0 end) →
    InvC s'.
  Proof.
    intros [Hhnd Href Hdel Hwhy Hpend Hhead Hbind Htrk Hund Hfree] Hsh Hst [Hn1 Hn2] Hcnt' Hpend' Hr Hd Hw Hu Hiv Hf.
    split; try done.
    - intros a Ha. apply Hcnt' in Ha as [Ha|Ha].
      + apply Hhnd in Ha as (n&Hn&?). destruct Hsh as [H1 _].
        destruct (H1 _ _ Hn) as (m&Hm&Hmr&_). exists m. by rewrite Hmr.
      + destruct Ha as (n&Hn&?). destruct Hsh as [H1 _].
        destruct (H1 _ _ Hn) as (m&Hm&Hmr&_). exists m. by rewrite Hmr.
    - intros a Ha. apply Hpend' in Ha as [Ha|Ha].
      + apply Hpend in Ha as (n&Hn&?). destruct Hsh as [H1 _].
        destruct (H1 _ _ Hn) as (m&Hm&Hmr&_). exists m. by rewrite Hmr.
      + destruct Ha as (n&Hn&?). destruct Hsh as [H1 _].
        destruct (H1 _ _ Hn) as (m&Hm&Hmr&_). exists m. by rewrite Hmr.
    - intros t' i rest. rewrite Hst. case_decide.
      + intros ->. by eapply head_ok_shape.
      + intros E. eapply head_ok_shape; eauto.
    - intros t' i. rewrite Hst. case_decide.
      + intros [Hi|[Hi _]]%Hn2; eapply bind_ok_shape; eauto.
      + intros E. eapply bind_ok_shape; eauto.
    - intros t' i. rewrite Hst. case_decide; [|by apply Htrk].
      intros [Hi|[_ Hi]]%Hn2; [by apply Htrk in Hi|done].
    - intros a m Hm Hv. destruct Hsh as [_ H2]. destruct (H2 _ _ Hm) as (n&Hn&Hmr&_).
      rewrite Hmr in Hv. destruct (Hund _ _ Hn Hv) as (Hc0&Hp0&t1&x&p&ks&k&rest&Ht1).
      destruct (Hu _ _ Hn Hv Hc0 Hp0) as [? ?]. split; [done|]. split; [done|].
      exists t1, x, p, ks, k, rest. rewrite Hst. case_decide; [|done]. subst.
      destruct (Hiv _ _ _ _ _ _ _ Ht1 Hn). congruence.
  Qed.

  Lemma InvC_cnt_None s a : InvC s → entry s a = None → cnt s a = 0.
  Proof.
    intros HC Ha. destruct (cnt s a) eqn:E; [done|].
    destruct (i_hnd _ HC a) as (?&?&_); [lia|]. congruence.
  Qed.
  Lemma InvC_pend_None s a : InvC s → entry s a = None → tsum (pend a) s = 0.
  Proof.
    intros HC Ha. destruct (tsum (pend a) s) eqn:E; [done|].
    destruct (i_pend _ HC a) as (?&?&_); [lia|]. congruence.
  Qed.

  (** erasure of entry [h] by thread [t] *)
  Lemma C_erase s s' t i0 rest0 new h n :
    InvC s → InvS s → entry s h = Some n →
    (∀ a, entry s' a = if decide (a = h) then None else entry s a) →
    stack s t = i0 :: rest0 → ulk i0 = 1 →
    (∀ t', stack s' t' = if decide (t' = t) then new else stack s t') →
    (∀ i, i ∈ new → i ∈ stack s t ∨ (bind_ok s i ∧ trk_ok s i)) → Forall simple new →
    cnt s h = 0 →
    tsum (pend h) s' = 0 →
    (∀ a, cnt s' a = cnt s a) →
    (∀ a, a ≠ h → tsum (pend a) s' = tsum (pend a) s) →
    (∀ a, a ≠ h → tsum (addel a) s' = tsum (addel a) s) →
    (∀ a, a ≠ h → pin a i0 = 0) →
    (∀ a, tsum (freeing a) s' =
      match heap s' !! a with Some n => b2n (negb (n_linked n)) | None => 0 end) →
    InvC s'.
  Proof.
    intros HC HS Hn He Hold Hulk Hst Hnew Hsim Hc0 Hp0 Hc Hp Had Hpin Hf.
    pose proof HC as [Hhnd Href Hdel Hwhy Hpend Hhead Hbind Htrk Hund Hfree].
    assert (Hcrit : 0 < lsum ulk (stack s t)) by (rewrite Hold, lsum_cons; lia).
    split; try done.
    - intros a. rewrite Hc. intros Ha. destruct (decide (a = h)) as [->|Hne]; [lia|].
      rewrite He, decide_False by done. auto.
    - intros Et a m. rewrite He, Hc. case_decide; [done|]. auto.
    - intros Et a m. rewrite He. case_decide; [done|]. intros Hm.
      rewrite Hc, Hp, Had by done. auto.
    - intros Et a m. rewrite He. case_decide as Hne; [done|]. intros Hm. rewrite Hc, Hp by done.
      destruct (Hwhy Et a m Hm) as [?|[?|Hpn]]; [tauto|tauto|].
      rewrite (pin_only s t i0 rest0) in Hpn by done. rewrite Hpin in Hpn by done. lia.
    - intros a Ha. destruct (decide (a = h)) as [->|Hne]; [lia|].
      rewrite He, decide_False by done. rewrite Hp in Ha by done. auto.
    - intros t' i rest. rewrite Hst. case_decide.
      + intros E. rewrite E in Hsim. inversion_clear Hsim as [|? ? Hi _]. destruct i; done.
      + intros E. specialize (Hhead _ _ _ E).
        assert (Hui : ulk i = 0).
        { destruct (ulk i) eqn:Eu; [done|]. exfalso. apply H. apply (excl s); [done| |done].
          rewrite E, lsum_cons. lia. }
        destruct i; simpl in *; try done.
    - assert (Hb : ∀ i, bind_ok s i → (∀ t', i ∈ stack s t' → bind_ok s' i)).
      { intros i Hi t' Hin. destruct i; try done. destruct Hi as (m&Hm&Hk). exists m.
        rewrite He. rewrite decide_False; [done|]. intros ->.
        pose proof (tsum_elem (own h) _ _ _ Hin) as Hge. simpl in Hge. rewrite at_eq in Hge.
        unfold cnt in Hc0. lia. }
      intros t' i Hi. assert (Hi' := Hi). rewrite Hst in Hi. case_decide; [|by eapply Hb; eauto].
      subst. apply Hnew in Hi as [Hi|[Hi _]]; [by eapply Hb; eauto|].
      destruct i; try done. destruct Hi as (m&Hm&Hk). exists m.
      rewrite He. rewrite decide_False; [done|]. intros ->.
      pose proof (tsum_elem (own h) _ _ _ Hi') as Hge. simpl in Hge. rewrite at_eq in Hge.
      specialize (Hc h). unfold cnt in Hc, Hc0. lia.
    - intros t' i. rewrite Hst. case_decide; [|by apply Htrk].
      intros [Hi|[_ Hi]]%Hnew; [by apply Htrk in Hi|done].
    - intros a m. rewrite He. case_decide as Hne; [done|]. intros Hm Hv.
      destruct (Hund _ _ Hm Hv) as (Hc1&Hp1&t1&x&p&ks&k&rest&Ht1).
      exfalso.
      assert (t1 = t).
      { apply (excl s); [done| |done]. rewrite Ht1, lsum_cons. simpl. lia. }
      subst. rewrite Ht1 in Hold. simplify_eq. specialize (Hpin a Hne). simpl in Hpin.
      rewrite at_eq in Hpin. done.
  Qed.
End Inv.
