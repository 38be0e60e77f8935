(** Every step of the machine of [Core.v] preserves the invariant of
    [CoreInv.v] and none is undefined behaviour. *)
From Verif Require Export CoreInv.

Section Step.
  Context {K A R V : Type}.
  Context (P : policy K A R V) (FS : factory K) (cfg : config).
  Context (eqv : K → K → bool) (good : R → Prop).
  Context (Heq : equivalence eqv) (HP : policy_ok eqv good P) (HF : factory_spec eqv FS).
  Context (t0 : tid).

  Notation state := (state (R:=R) (K:=K) (A:=A) FS).
  Notation instr := (instr (K:=K) (A:=A) (R:=R)).
  Notation node := (node (R:=R)).
  Notation kview := (kview P).
  Notation own := (own P).
  Notation tsum := (tsum FS).
  Notation vsum := (vsum FS).
  Notation hsum := (hsum P FS).
  Notation cnt := (cnt P FS).
  Notation ncount := (ncount P).
  Notation InvH := (InvH P FS eqv good HF).
  Notation InvC := (InvC P FS cfg eqv).
  Notation InvS := (InvS FS cfg t0).
  Notation Inv := (Inv P FS cfg eqv good HF t0).
  Notation head_ok := (head_ok P FS eqv).
  Notation bind_ok := (bind_ok P FS eqv).
  Notation trk_ok := (trk_ok FS cfg).
  Notation new_ok := (new_ok P FS cfg eqv).
  Notation same_shape := (same_shape FS).
  Notation done_node n := (is_Some (p_val P (n_rep n))).
  Implicit Types (s : state) (n m : node) (a b h : addr) (t : tid) (i : instr).

  Definition allowed (t : tid) : Prop := lck cfg = false → t = t0.

  (** a hit may reorganize the container *)
  Lemma Inv_hit s h : Inv s → h ∈ linked_set FS s → Inv (set_cont (f_hit FS (cont s) h) s).
  Proof.
    intros [[F U G C S] [] []] Hh. split; [|split; assumption|split; assumption].
    split; [|exact U|exact G|exact C|exact S]. exact (fi_hit _ _ HF _ _ _ _ F Hh).
  Qed.

  (** steps that leave the heap alone *)
  Lemma plain s s' t new :
    Inv s → heap s' = heap s → cont s' = cont s → clock s' = clock s →
    (∀ t', stack s' t' = if decide (t' = t) then new else stack s t') →
    (∀ f, tsum f s' + lsum f (stack s t) = tsum f s + lsum f new) →
    InvS s' → new_ok s (stack s t) new →
    (∀ a, vsum a s' + lsum (own a) new = vsum a s + lsum (own a) (stack s t) ∨
       (trk cfg = false ∧ (cnt s' a ≤ cnt s a ∨ ∃ n, entry s a = Some n ∧ done_node n))) →
    (∀ a, lsum (pend a) new = lsum (pend a) (stack s t)) →
    (∀ a, lsum (addel a) new = lsum (addel a) (stack s t)) →
    (∀ a, lsum (freeing a) new = lsum (freeing a) (stack s t)) →
    (trk cfg = true → ∀ a, lsum (pin a) (stack s t) ≤ lsum (pin a) new) →
    (∀ x a p ks k rest n, stack s t = IVisit x a p ks k :: rest → entry s a = Some n → done_node n) →
    Inv s'.
  Proof.
    intros [HH HC HS] Hh Hco Hk Hst Hts HS' Hnew Hcnt Hpe Had Hfr Hpi Hiv.
    assert (Hsh : same_shape s s') by (by apply same_shape_heap).
    assert (He : ∀ a, entry s' a = entry s a) by (intros a; unfold entry; by rewrite Hh).
    assert (Hhs : ∀ a, hsum a s' = hsum a s) by (intros a; unfold hsum; by rewrite Hh).
    assert (Hc : ∀ a, cnt s' a = cnt s a ∨
       (trk cfg = false ∧ (cnt s' a ≤ cnt s a ∨ ∃ n, entry s a = Some n ∧ done_node n))).
    { intros a. destruct (Hcnt a) as [E|E]; [left|by right]. unfold cnt.
      rewrite Hhs. specialize (Hts (own a)). lia. }
    assert (Hpe' : ∀ a, tsum (pend a) s' = tsum (pend a) s).
    { intros a. specialize (Hts (pend a)). specialize (Hpe a). lia. }
    assert (Had' : ∀ a, tsum (addel a) s' = tsum (addel a) s).
    { intros a. specialize (Hts (addel a)). specialize (Had a). lia. }
    assert (Hfr' : ∀ a, tsum (freeing a) s' = tsum (freeing a) s).
    { intros a. specialize (Hts (freeing a)). specialize (Hfr a). lia. }
    assert (Hpi' : trk cfg = true → ∀ a, tsum (pin a) s ≤ tsum (pin a) s').
    { intros Et a. specialize (Hts (pin a)). specialize (Hpi Et a). lia. }
    split; [by eapply InvH_shape| |done].
    eapply C_shape; try done.
    - intros a Ha. destruct (Hc a) as [<-|(_&[?|?])]; [by left|left; lia|by right].
    - intros a Ha. left. by rewrite <- Hpe'.
    - intros Et a n. rewrite He. destruct (Hc a) as [->|[E _]]; [by apply HC|congruence].
    - intros Et a n. rewrite He. destruct (Hc a) as [->|[E _]]; [|congruence].
      rewrite Had', Hpe'. by apply HC.
    - intros Et a n. rewrite He, Hpe'. destruct (Hc a) as [->|[E _]]; [|congruence].
      intros Hn. destruct (i_why _ _ _ _ _ HC Et _ _ Hn) as [?|[?|?]]; [tauto|tauto|].
      specialize (Hpi' Et a). right; right. lia.
    - intros a n Hn Hv Hc0 Hp0. rewrite Hpe'. split; [|done].
      destruct (Hc a) as [->|(_&[?|(n'&Hn'&?)])]; [done|lia|].
      rewrite Hn in Hn'. simplify_eq. destruct H; congruence.
    - intros a. rewrite Hfr', Hh. apply HC.
  Qed.

  (** steps that change the counters of one entry *)
  Lemma counter s s' t new h n n' :
    Inv s → entry s h = Some n → done_node n →
    n_rep n' = n_rep n → n_linked n' = true → n_stamp n' = n_stamp n →
    heap s' = <[h:=n']> (heap s) → cont s' = cont s → clock s' = clock s →
    (∀ t', stack s' t' = if decide (t' = t) then new else stack s t') →
    (∀ f, tsum f s' + lsum f (stack s t) = tsum f s + lsum f new) →
    InvS s' → new_ok s (stack s t) new →
    (∀ a, a ≠ h → vsum a s' + lsum (own a) new = vsum a s + lsum (own a) (stack s t)) →
    (∀ a, a ≠ h → lsum (pend a) new = lsum (pend a) (stack s t)) →
    (∀ a, a ≠ h → lsum (addel a) new = lsum (addel a) (stack s t)) →
    (∀ a, a ≠ h → lsum (pin a) (stack s t) ≤ lsum (pin a) new) →
    (∀ a, lsum (freeing a) new = lsum (freeing a) (stack s t)) →
    (trk cfg = true → n_ref n = Z.of_nat (cnt s h) →
      (n_del n + Z.of_nat (tsum (addel h) s))%Z =
        Z.of_nat (b2n (bool_decide (0 < cnt s h)) + tsum (pend h) s) →
      n_ref n' = Z.of_nat (cnt s' h) ∧
      (n_del n' + Z.of_nat (tsum (addel h) s'))%Z =
        Z.of_nat (b2n (bool_decide (0 < cnt s' h)) + tsum (pend h) s') ∧
      (0 < cnt s' h ∨ 0 < tsum (pend h) s')) →
    (∀ x a p ks k rest n, stack s t = IVisit x a p ks k :: rest → entry s a = Some n → done_node n) →
    trk cfg = true →
    Inv s'.
  Proof.
    intros [HH HC HS] Hn Hd Hr Hl Hs Hh Hco Hk Hst Hts HS' Hnew Hcnt Hpe Had Hpi Hfr Heqs Hiv Etrk.
    assert (Hlk : n_linked n = true) by (by apply entry_heap in Hn as [_ ?]).
    assert (Hhp : heap s !! h = Some n) by (by apply entry_heap in Hn as [? _]).
    assert (Hsh : same_shape s s').
    { eapply (same_shape_trans _ _ (put h n' s)); [by eapply same_shape_put|].
      by apply same_shape_heap. }
    assert (He : ∀ a, entry s' a = if decide (a = h) then Some n' else entry s a).
    { intros a. change (entry s' a) with (entry (set_heap (heap s') s) a). rewrite Hh.
      change (entry (put h n' s) a = if decide (a = h) then Some n' else entry s a).
      rewrite entry_put, Hl. done. }
    assert (Hhs : ∀ a, hsum a s' = hsum a s).
    { intros a. unfold hsum. rewrite Hh. pose proof (msum_upd (ncount a) _ _ _ n' Hhp) as E.
      assert (ncount a n' = ncount a n) by (unfold ncount; by rewrite Hl, Hlk, Hr). lia. }
    assert (Hc : ∀ a, a ≠ h → cnt s' a = cnt s a).
    { intros a Ha. unfold cnt. rewrite Hhs. specialize (Hts (own a)). specialize (Hcnt a Ha). lia. }
    assert (Hpe' : ∀ a, a ≠ h → tsum (pend a) s' = tsum (pend a) s).
    { intros a Ha. specialize (Hts (pend a)). specialize (Hpe a Ha). lia. }
    assert (Had' : ∀ a, a ≠ h → tsum (addel a) s' = tsum (addel a) s).
    { intros a Ha. specialize (Hts (addel a)). specialize (Had a Ha). lia. }
    assert (Hfr' : ∀ a, tsum (freeing a) s' = tsum (freeing a) s).
    { intros a. specialize (Hts (freeing a)). specialize (Hfr a). lia. }
    assert (Hpi' : ∀ a, a ≠ h → tsum (pin a) s ≤ tsum (pin a) s').
    { intros a Ha. specialize (Hts (pin a)). specialize (Hpi a Ha). lia. }
    split; [by eapply InvH_shape| |done].
    eapply C_shape; try done.
    - intros a Ha. destruct (decide (a = h)) as [->|Hne]; [by eauto|]. rewrite Hc in Ha by done. by left.
    - intros a Ha. destruct (decide (a = h)) as [->|Hne]; [by eauto|]. rewrite Hpe' in Ha by done. by left.
    - intros _ a m. rewrite He. destruct (decide (a = h)) as [->|Hne].
      + intros ?; simplify_eq. apply Heqs; [done|..]; by apply HC.
      + rewrite Hc by done. by apply HC.
    - intros _ a m. rewrite He. destruct (decide (a = h)) as [->|Hne].
      + intros ?; simplify_eq. apply Heqs; [done|..]; by apply HC.
      + rewrite Hc, Had', Hpe' by done. by apply HC.
    - intros _ a m. rewrite He. destruct (decide (a = h)) as [->|Hne].
      + intros ?; simplify_eq. destruct Heqs as (_&_&?); [done|by apply HC..|]. tauto.
      + rewrite Hc, Hpe' by done. intros Hm.
        destruct (i_why _ _ _ _ _ HC Etrk _ _ Hm) as [?|[?|?]]; [tauto|tauto|].
        specialize (Hpi' a Hne). right; right. lia.
    - intros a m Hm Hv Hc0 Hp0. assert (a ≠ h).
      { intros ->. rewrite Hn in Hm. simplify_eq. destruct Hd; congruence. }
      by rewrite Hc, Hpe'.
    - intros a. rewrite Hfr', Hh. rewrite (i_free _ _ _ _ _ HC). destruct (decide (a = h)) as [->|Hne].
      + rewrite lookup_insert, Hhp. by rewrite Hl, Hlk.
      + by rewrite lookup_insert_ne.
  Qed.

  Ltac lsimp := unfold finish, unwind; repeat (progress (rewrite ?lsum_cons, ?lsum_app, ?lsum_nil,
     ?(lsum_own_release P), ?(lsum_release (pend _)), ?(lsum_release (addel _)), ?(lsum_release (freeing _)),
     ?(lsum_release (pin _)), ?(lsum_release (making _)), ?(lsum_release ulk) by done; simpl)).

  Lemma making_same s s' t new : InvS s → vars s' = vars s →
    (∀ f, tsum f s' + lsum f (stack s t) = tsum f s + lsum f new) →
    (∀ x, lsum (making x) new = lsum (making x) (stack s t)) →
    ∀ x, tsum (making x) s' = match vars s' !! x with Some None => 1 | _ => 0 end.
  Proof.
    intros HS Hv Hts Hm x. rewrite Hv. specialize (Hts (making x)). specialize (Hm x).
    pose proof (i_vars _ _ _ _ HS x). lia.
  Qed.

  Lemma simple_release ks : Forall simple (map (IRelease (K:=K) (A:=A) (R:=R)) ks).
  Proof. induction ks; constructor; done. Qed.

  Lemma tail_app ks (rest : list instr) : Forall simple rest → Forall simple (map IRelease ks ++ rest).
  Proof. intros. apply Forall_app. split; [apply simple_release|done]. Qed.

  Lemma release_ok s ks i : i ∈ map IRelease ks → bind_ok s i ∧ trk_ok s i.
  Proof. intros (a&->&_)%elem_of_list_fmap. done. Qed.

  Definition res_ok (r : res FS) : Prop :=
    match r with Next s' => Inv s' | Stuck => True | Undef => False end.

  Lemma stk_facts s s1 t new : stacks s1 = stacks s →
    (∀ t', stack (set_stack t new s1) t' = if decide (t' = t) then new else stack s t') ∧
    (∀ f, tsum f (set_stack t new s1) + lsum f (stack s t) = tsum f s + lsum f new).
  Proof.
    intros E. split.
    - intros t'. rewrite stack_set. unfold stack. by rewrite E.
    - intros f. pose proof (tsum_set _ f s1 t new) as H.
      unfold tsum, stack in *. rewrite E in H. done.
  Qed.

  Lemma kid_cnt s b n a : entry s b = Some n → a ∈ p_kids P (n_rep n) → 0 < cnt s a.
  Proof.
    intros Hb Hin. apply occ_pos in Hin. apply entry_heap in Hb as [Hb Hl].
    pose proof (msum_ge (ncount a) _ _ _ Hb) as Hge.
    assert (ncount a n = occ a (p_kids P (n_rep n))) as E.
    { unfold CoreInv.ncount. by rewrite Hl. }
    rewrite E in Hge. unfold CoreInv.cnt, CoreInv.hsum. lia.
  Qed.

  Lemma hsum_put s s' h n n' a : heap s !! h = Some n → heap s' = <[h:=n']> (heap s) →
    hsum a s' + ncount a n = hsum a s + ncount a n'.
  Proof. intros Hh E. unfold CoreInv.hsum. rewrite E. by apply msum_upd. Qed.
  Lemma ncount_linked a n : n_linked n = true → ncount a n = occ a (p_kids P (n_rep n)).
  Proof. intros H. unfold CoreInv.ncount. by rewrite H. Qed.

  Lemma vsum_stack s t k a : vsum a (set_stack t k s) = vsum a s.
  Proof. done. Qed.

  Ltac inold := let i := fresh "i" in let Hi := fresh "Hi" in
    intros i Hi; repeat (rewrite ?elem_of_app, ?elem_of_cons in Hi);
    repeat match type of Hi with _ ∨ _ => destruct Hi as [Hi|Hi] end; subst;
    try (left; rewrite ?elem_of_cons; tauto); try (right; done); try (right; by eapply release_ok);
    try (by apply elem_of_nil in Hi).

  Section branch.
    Context (s : state) (t : tid) (rest : list instr) (c : choice).
    Context (HI : Inv s) (Hal : allowed t).

    Lemma ex_lockfind x p r : stack s t = ILockFind x p r :: rest →
      res_ok (exec P FS cfg s t (ILockFind x p r) rest c).
    Proof using Type*.
      intros Hst. simpl. destruct (acquire FS cfg s t) as [s1|] eqn:Ea; [|done]. simpl.
      pose proof HI as [HH HC HS].
      assert (Hs1 : heap s1 = heap s ∧ cont s1 = cont s ∧ clock s1 = clock s ∧ vars s1 = vars s ∧ stacks s1 = stacks s).
      { unfold acquire in Ea. repeat case_match; simplify_eq; done. }
      destruct Hs1 as (E1&E2&E3&E4&E5).
      destruct (stk_facts s s1 t (IFind x p r :: rest) E5) as [H1 H2].
      eapply plain; try done.
      - eapply (InvS_acquire _ _ _ s s1); try done.
        + by eapply (i_tail _ _ _ _ HS).
        + rewrite Hst. lsimp. lia.
        + eapply making_same; try done. intros y. rewrite Hst. done.
      - split.
        + by apply (i_head _ _ _ _ _ HC _ _ _ Hst).
        + rewrite Hst. inold.
      - intros a. left. rewrite Hst. unfold vsum. rewrite <- E4. done.
      - intros a. by rewrite Hst.
      - intros a. by rewrite Hst.
      - intros a. by rewrite Hst.
      - intros _ a. by rewrite Hst.
      - intros. congruence.
    Qed.

    Lemma ex_lockcheck h : stack s t = ILockCheck h :: rest →
      res_ok (exec P FS cfg s t (ILockCheck h) rest c).
    Proof using Type*.
      intros Hst. simpl. destruct (acquire FS cfg s t) as [s1|] eqn:Ea; [|done]. simpl.
      pose proof HI as [HH HC HS].
      assert (Hs1 : heap s1 = heap s ∧ cont s1 = cont s ∧ clock s1 = clock s ∧ vars s1 = vars s ∧ stacks s1 = stacks s).
      { unfold acquire in Ea. repeat case_match; simplify_eq; done. }
      destruct Hs1 as (E1&E2&E3&E4&E5).
      destruct (stk_facts s s1 t (ICheck h :: rest) E5) as [H1 H2].
      assert (Ht : trk cfg = true).
      { eapply (i_trk _ _ _ _ _ HC t (ILockCheck h)). rewrite Hst. set_solver. }
      eapply plain; try done.
      - eapply (InvS_acquire _ _ _ s s1); try done.
        + by eapply (i_tail _ _ _ _ HS).
        + rewrite Hst. lsimp. lia.
        + eapply making_same; try done. intros y. rewrite Hst. done.
      - split; [done|]. rewrite Hst. inold.
      - intros a. left. rewrite Hst. unfold vsum. rewrite <- E4. done.
      - intros a. by rewrite Hst.
      - intros a. by rewrite Hst.
      - intros a. by rewrite Hst.
      - intros _ a. by rewrite Hst.
      - intros. congruence.
    Qed.

    Lemma ex_unlock : stack s t = IUnlock :: rest →
      res_ok (exec P FS cfg s t IUnlock rest c).
    Proof using Type*.
      intros Hst. simpl. pose proof HI as [HH HC HS].
      destruct (unlock_ok _ _ _ s t HS) as [s1 Ea]; [rewrite Hst, lsum_cons; simpl; lia|].
      rewrite Ea. simpl.
      assert (Hs1 : heap s1 = heap s ∧ cont s1 = cont s ∧ clock s1 = clock s ∧ vars s1 = vars s ∧ stacks s1 = stacks s).
      { unfold unlock in Ea. repeat case_match; simplify_eq; done. }
      destruct Hs1 as (E1&E2&E3&E4&E5).
      destruct (stk_facts s s1 t rest E5) as [H1 H2].
      assert (Htl : Forall simple rest) by (by eapply (i_tail _ _ _ _ HS)).
      eapply plain; try done.
      - eapply (InvS_unlock _ _ _ s s1); try done.
        + destruct Htl; done.
        + rewrite Hst. lsimp. lia.
        + eapply making_same; try done. intros y. rewrite Hst. done.
      - split; [|rewrite Hst; inold].
        destruct Htl as [|i l Hi]; [done|]. destruct i; done.
      - intros a. left. rewrite Hst. unfold vsum. rewrite <- E4. done.
      - intros a. by rewrite Hst.
      - intros a. by rewrite Hst.
      - intros a. by rewrite Hst.
      - intros _ a. by rewrite Hst.
      - intros. congruence.
    Qed.

    (** steps that only replace the head of the stack *)
    Lemma plain_stack_at s0 old new : Inv s0 → stack s0 t = old →
      tail_ok new → lsum ulk new = lsum ulk old →
      (∀ x, lsum (making x) new = lsum (making x) old) →
      new_ok s0 old new →
      (∀ a, lsum (own a) new = lsum (own a) old) →
      (∀ a, lsum (pend a) new = lsum (pend a) old) →
      (∀ a, lsum (addel a) new = lsum (addel a) old) →
      (∀ a, lsum (freeing a) new = lsum (freeing a) old) →
      (∀ a, lsum (pin a) old ≤ lsum (pin a) new) →
      (∀ x a p ks k rest n, old = IVisit x a p ks k :: rest → entry s0 a = Some n → done_node n) →
      Inv (set_stack t new s0).
    Proof using Type*.
      intros HI0 Hst Htl Hu Hm Hnew Ho Hp Ha Hf Hpi Hiv. subst old.
      pose proof HI0 as [HH HC HS].
      destruct (stk_facts s0 s0 t new eq_refl) as [H1 H2].
      eapply plain; try done.
      - eapply InvS_same; try done. eapply making_same; done.
      - intros a. left. rewrite Ho. done.
    Qed.
    Definition plain_stack old new := plain_stack_at s old new HI.

    Lemma ex_find x p r : stack s t = IFind x p r :: rest →
      res_ok (exec P FS cfg s t (IFind x p r) rest c).
    Proof using Type*.
      intros Hst. simpl. pose proof HI as [HH HC HS].
      assert (Htl : Forall simple rest) by (by eapply (i_tail _ _ _ _ HS)).
      pose proof (i_head _ _ _ _ _ HC _ _ _ Hst) as [ks0 Hmk]. simpl in Hmk.
      destruct (c_throw c).
      { simpl. eapply plain_stack; try done.
        - unfold unwind. simpl. rewrite <- app_assoc. simpl. apply tail_app. constructor; done.
        - lsimp. lia.
        - intros y. lsimp. lia.
        - split; [done|]. unfold unwind. inold.
        - intros a. lsimp. lia.
        - intros a. lsimp. done.
        - intros a. lsimp. done.
        - intros a. lsimp. done.
        - intros a. lsimp. done. }
      destruct (f_find FS (cont s) (kview s) (p_key P r)) as [h| |] eqn:Ef.
      3:{ simpl. by eapply fi_goodread in Ef; [|exact (i_fac _ _ _ _ _ _ HH)]. }
      - simpl. eapply fi_found in Ef as [Hin (k'&Hk'&Hkk)]; [|exact (i_fac _ _ _ _ _ _ HH)].
        apply elem_of_linked in Hin as [n Hn]. rewrite (kview_entry _ _ _ _ _ Hn) in Hk'. simplify_eq.
        eapply plain_stack_at; [apply Inv_hit; [done|apply elem_of_linked; eauto]|try done..].
        + split; [|inold]. exists n. split; [done|]. split; [done|]. intros Hv.
          destruct (i_undone _ _ _ _ _ HC _ _ Hn Hv) as (_&_&t1&y&p1&ks1&k1&rest1&Ht1).
          exfalso. assert (t1 = t); [|subst; congruence].
          eapply (excl _ _ _ s); [done|..].
          * rewrite Ht1, lsum_cons. simpl. lia.
          * rewrite Hst, lsum_cons. simpl. lia.
        + intros a. rewrite !lsum_cons. simpl. lia.
      - destruct (heap s !! c_addr c) as [?|] eqn:Ha; [done|]. simpl.
        set (a := c_addr c) in *. set (nd := Node r 0 0 true (clock s)).
        set (s2 := set_clock _ _). set (new := IVisit x a p [] (p_key P r) :: rest).
        destruct (stk_facts s s2 t new eq_refl) as [H1 H2].
        set (s' := set_stack t new s2) in *.
        assert (Hna : entry s a = None) by (unfold entry; by rewrite Ha).
        assert (Hc0 : cnt s a = 0) by (by eapply InvC_cnt_None).
        assert (Hp0 : tsum (pend a) s = 0) by (by eapply InvC_pend_None).
        assert (He : ∀ b, entry s' b = if decide (b = a) then Some nd else entry s b).
        { intros b. exact (entry_put _ s a nd b). }
        destruct (po_make _ _ _ HP _ _ _ Hmk) as [Hgood Hkids].
        assert (Hcnt : ∀ b, cnt s' b = cnt s b).
        { intros b. specialize (H2 (own b)). rewrite Hst in H2. unfold new in H2.
          rewrite !lsum_cons in H2. simpl in H2. unfold cnt.
          assert (hsum b s' = ncount b nd + hsum b s) as ->.
          { unfold hsum. simpl. by rewrite msum_new. }
          change (vsum b s') with (vsum b s). unfold ncount, CoreInv.ncount. simpl.
          rewrite ?occ_nil in H2. lia. }
        assert (Hpe : ∀ b, tsum (pend b) s' = tsum (pend b) s).
        { intros b. specialize (H2 (pend b)). rewrite Hst in H2. unfold new in H2.
          rewrite !lsum_cons in H2. simpl in H2. lia. }
        assert (Had : ∀ b, tsum (addel b) s' = tsum (addel b) s).
        { intros b. specialize (H2 (addel b)). rewrite Hst in H2. unfold new in H2.
          rewrite !lsum_cons in H2. simpl in H2. lia. }
        assert (Hfr : ∀ b, tsum (freeing b) s' = tsum (freeing b) s).
        { intros b. specialize (H2 (freeing b)). rewrite Hst in H2. unfold new in H2.
          rewrite !lsum_cons in H2. simpl in H2. lia. }
        assert (Hpi : ∀ b, tsum (pin b) s' = tsum (pin b) s + at_ b a).
        { intros b. specialize (H2 (pin b)). rewrite Hst in H2. unfold new in H2.
          rewrite !lsum_cons in H2. simpl in H2. lia. }
        assert (Hmono : ∀ b n, entry s b = Some n → entry s' b = Some n).
        { intros b n Hb. rewrite He. rewrite decide_False; [done|]. congruence. }
        split.
        + apply (InvH_shape P FS eqv good Heq HF s2); [by apply same_shape_heap|done|done|].
          apply (InvH_alloc P FS eqv good Heq HF); try done.
          * intros b n Hb. eapply fi_notfound; [exact (i_fac _ _ _ _ _ _ HH)|exact Ef|..].
            -- apply elem_of_linked. eauto.
            -- by apply kview_entry.
          * intros b Hb. destruct (i_hnd _ _ _ _ _ HC b) as (m&Hm&_); [|by eauto].
            pose proof (tsum_elem _ (own b) s t (IFind x p r)) as Hge.
            rewrite Hst in Hge. simpl in Hge. apply occ_pos in Hb. unfold cnt.
            assert (occ b (p_kids P r) ≤ tsum (own b) s) by (apply Hge; set_solver). lia.
          * intros b n Hb Hin. pose proof (kid_cnt _ _ _ _ Hb Hin). lia.
        + split.
          * intros b Hb. rewrite Hcnt in Hb. apply (i_hnd _ _ _ _ _ HC) in Hb as (m&Hm&?).
            exists m. split; [by apply Hmono|done].
          * intros Et b m. rewrite He, Hcnt. destruct (decide (b = a)) as [->|Hne].
            -- intros; simplify_eq. by rewrite Hc0.
            -- by apply HC.
          * intros Et b m. rewrite He, Hcnt, Had, Hpe. destruct (decide (b = a)) as [->|Hne].
            -- intros; simplify_eq. rewrite Hc0, Hp0.
               rewrite (addel_only P FS cfg eqv good Heq HP t0 s t _ rest a HS Hst) by done. done.
            -- by apply HC.
          * intros Et b m. rewrite He, Hcnt, Hpe, Hpi. destruct (decide (b = a)) as [->|Hne].
            -- rewrite at_eq. lia.
            -- intros Hm. destruct (i_why _ _ _ _ _ HC Et _ _ Hm) as [?|[?|?]]; [tauto|tauto|lia].
          * intros b Hb. rewrite Hpe in Hb. apply (i_pend _ _ _ _ _ HC) in Hb as (m&Hm&?).
            exists m. split; [by apply Hmono|done].
          * intros t' i rest'. rewrite H1. destruct (decide (t' = t)) as [->|Hne].
            -- intros E. unfold new in E. simplify_eq. simpl. exists nd.
               rewrite He, decide_True by done. split; [done|]. split; [by apply (eqv_refl _ Heq)|].
               by eauto.
            -- intros E. pose proof (i_head _ _ _ _ _ HC _ _ _ E) as Hh.
               destruct i; simpl in *; try done;
                 destruct Hh as (m&Hm&Hr); exists m; (split; [by apply Hmono|done]).
          * intros t' i Hi. assert (bind_ok s i) as Hb.
            { rewrite H1 in Hi. destruct (decide (t' = t)) as [->|Hne]; [|by eapply i_bind].
              unfold new in Hi. apply elem_of_cons in Hi as [->|Hi]; [done|].
              eapply i_bind; [done|]. rewrite Hst. by right. }
            destruct i; simpl in *; try done. destruct Hb as (m&Hm&?). exists m.
            split; [by apply Hmono|done].
          * intros t' i. rewrite H1. destruct (decide (t' = t)) as [->|Hne]; [|by eapply i_trk].
            unfold new. intros [->|Hi]%elem_of_cons; [done|].
            eapply (i_trk _ _ _ _ _ HC t). rewrite Hst. by right.
          * intros b m. rewrite He. destruct (decide (b = a)) as [->|Hne].
            -- intros; simplify_eq. rewrite Hcnt, Hpe. split; [done|]. split; [done|].
               exists t, x, p, [], (p_key P r), rest. rewrite H1, decide_True by done. done.
            -- intros Hm Hv. rewrite Hcnt, Hpe.
               destruct (i_undone _ _ _ _ _ HC _ _ Hm Hv) as (?&?&t1&y&p1&ks1&k1&rest1&Ht1).
               split; [done|]. split; [done|]. exists t1, y, p1, ks1, k1, rest1.
               rewrite H1. rewrite decide_False; [done|]. intros ->. congruence.
          * intros b. rewrite Hfr, (i_free _ _ _ _ _ HC). simpl.
            destruct (decide (b = a)) as [->|Hne].
            -- rewrite lookup_insert, Ha. done.
            -- by rewrite lookup_insert_ne.
        + eapply (InvS_same _ _ _ s); try done.
          * intros _. rewrite Hst. done.
          * eapply making_same; try done. intros y. rewrite Hst. done.
    Qed.

    Lemma ex_visit x h p ks k : stack s t = IVisit x h p ks k :: rest →
      res_ok (exec P FS cfg s t (IVisit x h p ks k) rest c).
    Proof using Type*.
      intros Hst. simpl. pose proof HI as [HH HC HS].
      assert (Htl : Forall simple rest) by (by eapply (i_tail _ _ _ _ HS)).
      pose proof (i_head _ _ _ _ _ HC _ _ _ Hst) as (n&Hn&Hnk&Hmk). simpl in Hmk.
      rewrite Hn. destruct (p_val P (n_rep n)) as [v|] eqn:Hv.
      { simpl. eapply plain_stack; try done.
        - split; [|inold]. exists n. split; [done|]. split; [done|]. rewrite Hv. eauto.
        - intros; simplify_eq. rewrite Hv. eauto. }
      assert (Hundo := i_undone _ _ _ _ _ HC _ _ Hn Hv). destruct Hundo as (Hc0&Hp0&_).
      assert (Hlk : n_linked n = true) by (by apply entry_heap in Hn as [_ ?]).
      assert (Hhp : heap s !! h = Some n) by (by apply entry_heap in Hn as [? _]).
      destruct Hmk as [ks0 Hmk]; [done|].
      destruct (c_throw c).
      - simpl. set (s1 := add_log _ _).
        set (new := (map IRelease (p_kids P (n_rep n)) ++ [IFree h]) ++ unwind x ks ++ rest).
        destruct (stk_facts s s1 t new eq_refl) as [H1 H2].
        set (s' := set_stack t new s1) in *.
        assert (He : ∀ b, entry s' b = if decide (b = h) then None else entry s b).
        { intros b. change (entry (put h (unlinked n) s) b =
            if decide (b = h) then None else entry s b). by rewrite entry_put. }
        assert (Hsim : Forall simple new).
        { unfold new, unwind. rewrite <- app_assoc. apply tail_app. simpl.
          repeat (constructor; [done|]). rewrite <- app_assoc. apply tail_app. constructor; done. }
        split.
        + apply (InvH_shape P FS eqv good Heq HF (set_cont (f_unlink FS (cont s) (kview s) h) (put h (unlinked n) s)));
            [by apply same_shape_heap|done|done|].
          by eapply InvH_erase.
        + eapply (C_erase P FS cfg eqv good Heq HP t0 s s'); try done.
          * intros i Hi. unfold new, unwind in Hi. revert i Hi. rewrite Hst. inold.
          * specialize (H2 (pend h)). rewrite Hst in H2. unfold new in H2. revert H2. lsimp. lia.
          * intros a. specialize (H2 (own a)). rewrite Hst in H2. unfold new in H2. revert H2. lsimp.
            pose proof (hsum_put s s' _ _ (unlinked n) a Hhp eq_refl) as E.
            rewrite ncount_linked in E by done. change (ncount a (unlinked n)) with 0 in E.
            unfold CoreInv.cnt. change (vsum a s') with (vsum a s). lia.
          * intros a Hne. specialize (H2 (pend a)). rewrite Hst in H2. unfold new in H2. revert H2. lsimp. lia.
          * intros a Hne. specialize (H2 (addel a)). rewrite Hst in H2. unfold new in H2. revert H2. lsimp. lia.
          * intros a Hne. simpl. by apply at_ne.
          * intros a. specialize (H2 (freeing a)). rewrite Hst in H2. unfold new in H2. revert H2. lsimp.
            rewrite (i_free _ _ _ _ _ HC). simpl. destruct (decide (a = h)) as [->|Hne].
            -- rewrite Hhp, lookup_insert, at_eq. simpl. rewrite Hlk. simpl. lia.
            -- rewrite lookup_insert_ne by done. rewrite at_ne by done. lia.
        + eapply (InvS_same _ _ _ s); try done.
          * destruct Hsim; done.
          * intros _. rewrite Hst. unfold new. lsimp. lia.
          * eapply making_same; try done. intros y. rewrite Hst. unfold new. lsimp. lia.
      - simpl. destruct (po_build _ _ _ HP _ _ _ Hmk Hv) as (Hbv&Hbg&Hbk&Hbo).
        set (r' := p_build P p (n_rep n)) in *.
        set (new := IAddRef x h ks k :: rest).
        destruct (stk_facts s (put h (with_rep n r') s) t new eq_refl) as [H1 H2].
        set (s' := set_stack t new (put h (with_rep n r') s)) in *.
        change (Inv (add_log (EvBuild h k) s')) with (Inv (add_log (EvBuild h k) s')).
        set (s'' := add_log (EvBuild h k) s').
        assert (He : ∀ b, entry s'' b = if decide (b = h) then Some (with_rep n r') else entry s b).
        { intros b. change (entry (put h (with_rep n r') s) b =
            if decide (b = h) then Some (with_rep n r') else entry s b). rewrite entry_put. simpl. by rewrite Hlk. }
        assert (Hcnt : ∀ b, cnt s'' b = cnt s b).
        { intros b. specialize (H2 (own b)). rewrite Hst in H2. unfold new in H2. revert H2. lsimp.
          change (tsum (own b) s') with (tsum (own b) s'').
          pose proof (hsum_put s s'' _ _ (with_rep n r') b Hhp eq_refl) as E.
          rewrite !ncount_linked in E by done. simpl in E. rewrite Hbo in E.
          unfold CoreInv.cnt. change (vsum b s'') with (vsum b s). lia. }
        assert (Hpe : ∀ b, tsum (pend b) s'' = tsum (pend b) s).
        { intros b. specialize (H2 (pend b)). rewrite Hst in H2. unfold new in H2. revert H2. lsimp.
          change (tsum (pend b) s') with (tsum (pend b) s''). lia. }
        assert (Had : ∀ b, tsum (addel b) s'' = tsum (addel b) s).
        { intros b. specialize (H2 (addel b)). rewrite Hst in H2. unfold new in H2. revert H2. lsimp.
          change (tsum (addel b) s') with (tsum (addel b) s''). lia. }
        assert (Hfr : ∀ b, tsum (freeing b) s'' = tsum (freeing b) s).
        { intros b. specialize (H2 (freeing b)). rewrite Hst in H2. unfold new in H2. revert H2. lsimp.
          change (tsum (freeing b) s') with (tsum (freeing b) s''). lia. }
        assert (Hpi : ∀ b, tsum (pin b) s'' = tsum (pin b) s).
        { intros b. specialize (H2 (pin b)). rewrite Hst in H2. unfold new in H2. revert H2. lsimp.
          change (tsum (pin b) s') with (tsum (pin b) s''). lia. }
        assert (Hkk : eqv (p_key P r') k = true) by (by eapply (eqv_trans _ Heq)).
        assert (Hne_t : ∀ t' i rest', t' ≠ t → stack s t' = i :: rest' → ulk i = 0).
        { intros t' i rest' Hne E. destruct (ulk i) eqn:Eu; [done|]. exfalso. apply Hne.
          eapply (excl _ _ _ s); [done|..].
          - rewrite E, lsum_cons. lia.
          - rewrite Hst, lsum_cons. simpl. lia. }
        assert (Hmono : ∀ b m k1, entry s b = Some m → eqv (p_key P (n_rep m)) k1 = true →
           ∃ m', entry s'' b = Some m' ∧ eqv (p_key P (n_rep m')) k1 = true).
        { intros b m k1 Hb Hk1. rewrite He. destruct (decide (b = h)) as [->|Hne]; [|by eauto].
          rewrite Hn in Hb. simplify_eq. eexists. split; [done|]. simpl.
          by eapply (eqv_trans _ Heq _ _ _ Hbk). }
        split.
        + apply (InvH_shape P FS eqv good Heq HF (put h (with_rep n r') s));
            [by apply same_shape_heap|done|done|].
          by eapply InvH_build.
        + split.
          * intros b Hb. rewrite Hcnt in Hb. apply (i_hnd _ _ _ _ _ HC) in Hb as (m&Hm&Hmv).
            rewrite He. destruct (decide (b = h)) as [->|]; by eauto.
          * intros Et b m. rewrite He, Hcnt. destruct (decide (b = h)) as [->|Hne]; [|by apply HC].
            intros; simplify_eq. simpl. by apply HC.
          * intros Et b m. rewrite He, Hcnt, Had, Hpe. destruct (decide (b = h)) as [->|Hne]; [|by apply HC].
            intros; simplify_eq. simpl. by apply HC.
          * intros Et b m. rewrite He, Hcnt, Hpe, Hpi. destruct (decide (b = h)) as [->|Hne]; [|by apply HC].
            intros; simplify_eq. by apply (i_why _ _ _ _ _ HC Et _ n).
          * intros b Hb. rewrite Hpe in Hb. apply (i_pend _ _ _ _ _ HC) in Hb as (m&Hm&Hmv).
            rewrite He. destruct (decide (b = h)) as [->|]; by eauto.
          * intros t' i rest' E. change (stack s'' t') with (stack s' t') in E. rewrite H1 in E.
            destruct (decide (t' = t)) as [->|Hne].
            -- unfold new in E. simplify_eq. simpl. exists (with_rep n r').
               rewrite He, decide_True by done. done.
            -- pose proof (i_head _ _ _ _ _ HC _ _ _ E) as Hh. pose proof (Hne_t _ _ _ Hne E) as Hu.
               destruct i; simpl in *; done.
          * intros t' i Hi. change (stack s'' t') with (stack s' t') in Hi.
            assert (bind_ok s i) as Hb.
            { rewrite H1 in Hi. destruct (decide (t' = t)) as [->|Hne]; [|by eapply i_bind].
              unfold new in Hi. apply elem_of_cons in Hi as [->|Hi]; [done|].
              eapply i_bind; [done|]. rewrite Hst. by right. }
            destruct i; simpl in *; try done. destruct Hb as (m&Hm&?). by eapply Hmono.
          * intros t' i Hi. change (stack s'' t') with (stack s' t') in Hi. rewrite H1 in Hi.
            destruct (decide (t' = t)) as [->|Hne]; [|by eapply (i_trk _ _ _ _ _ HC t')].
            unfold new in Hi. apply elem_of_cons in Hi as [->|Hi]; [done|].
            eapply (i_trk _ _ _ _ _ HC t). rewrite Hst. by right.
          * intros b m. rewrite He. destruct (decide (b = h)) as [->|Hne].
            -- intros; simplify_eq. simpl in *. destruct Hbv. congruence.
            -- intros Hm Hmv. rewrite Hcnt, Hpe.
               destruct (i_undone _ _ _ _ _ HC _ _ Hm Hmv) as (?&?&t1&y&p1&ks1&k1&rest1&Ht1).
               split; [done|]. split; [done|]. exists t1, y, p1, ks1, k1, rest1.
               change (stack s'' t1) with (stack s' t1).
               rewrite H1. rewrite decide_False; [done|]. intros ->. congruence.
          * intros b. rewrite Hfr, (i_free _ _ _ _ _ HC). simpl.
            destruct (decide (b = h)) as [->|Hne].
            -- rewrite lookup_insert, Hhp. done.
            -- by rewrite lookup_insert_ne.
        + eapply (InvS_same _ _ _ s _ t new); try done.
          * intros _. rewrite Hst. done.
          * eapply (making_same s s'' t new); try done. intros y. rewrite Hst. done.
    Qed.

    Lemma ex_addref x h ks k : stack s t = IAddRef x h ks k :: rest →
      res_ok (exec P FS cfg s t (IAddRef x h ks k) rest c).
    Proof using Type*.
      intros Hst. simpl. pose proof HI as [HH HC HS].
      assert (Htl : Forall simple rest) by (by eapply (i_tail _ _ _ _ HS)).
      pose proof (i_head _ _ _ _ _ HC _ _ _ Hst) as (n&Hn&Hnk&Hd). simpl in *.
      assert (Hlk : n_linked n = true) by (by apply entry_heap in Hn as [_ ?]).
      assert (Hb : bind_ok s (IBind x h k)) by (exists n; done).
      assert (Htl' : tail_ok (finish x h ks k ++ rest)).
      { unfold finish. simpl. rewrite <- app_assoc. apply tail_app. constructor; done. }
      assert (Hnew : new_ok s (stack s t) (finish x h ks k ++ rest)).
      { split; [done|]. rewrite Hst. unfold finish. inold. }
      destruct (trk cfg) eqn:Et.
      2:{ simpl. destruct (stk_facts s s t (finish x h ks k ++ rest) eq_refl) as [H1 H2].
        eapply (plain s _ t); try done.
        - eapply (InvS_same _ _ _ s); try done.
          + intros _. rewrite Hst. lsimp. lia.
          + eapply (making_same s); try done. intros y. rewrite Hst. lsimp. lia.
        - intros a. destruct (decide (a = h)) as [->|Hne]; [right; split; [done|right; by eauto]|left].
          rewrite vsum_stack. rewrite Hst. lsimp. rewrite at_ne by done. lia.
        - intros a. rewrite Hst. lsimp. done.
        - intros a. rewrite Hst. lsimp. done.
        - intros a. rewrite Hst. lsimp. done.
        - congruence.
        - intros. congruence. }
      rewrite Hn. case_decide as Hr.
      - simpl. set (n' := with_ref n (n_ref n + 1)).
        destruct (stk_facts s (put h n' s) t (IAddDel x h ks k :: rest) eq_refl) as [H1 H2].
        set (s' := set_stack t _ (put h n' s)) in *.
        eapply (counter s s' t (IAddDel x h ks k :: rest) h n n'); try done.
        + eapply (InvS_same _ _ _ s); try done.
          * intros _. rewrite Hst. lsimp. lia.
          * eapply (making_same s); try done. intros y. rewrite Hst. lsimp. lia.
        + split; [by exists n|]. rewrite Hst. inold.
        + intros a Hne. change (vsum a s') with (vsum a s). rewrite Hst. lsimp. rewrite at_ne by done. lia.
        + intros a Hne. rewrite Hst. done.
        + intros a Hne. rewrite Hst. lsimp. by rewrite at_ne.
        + intros a Hne. rewrite Hst. done.
        + intros a. rewrite Hst. done.
        + intros _ Hr1 Hd1.
          assert (Hc : cnt s' h = S (cnt s h)).
          { specialize (H2 (own h)). rewrite Hst in H2. revert H2. lsimp. rewrite at_eq.
            pose proof (hsum_put s s' h n n' h (proj1 (proj1 (entry_heap _ s h n) Hn)) eq_refl) as E.
            rewrite !ncount_linked in E by done. simpl in E.
            unfold CoreInv.cnt. change (vsum h s') with (vsum h s). lia. }
          assert (Hp : tsum (pend h) s' = tsum (pend h) s).
          { specialize (H2 (pend h)). rewrite Hst in H2. revert H2. lsimp. lia. }
          assert (Ha : tsum (addel h) s' = S (tsum (addel h) s)).
          { specialize (H2 (addel h)). rewrite Hst in H2. revert H2. lsimp. rewrite at_eq. lia. }
          rewrite Hc, Hp, Ha. simpl. assert (cnt s h = 0) as Hz by lia. rewrite Hz in *. simpl in *.
          split; [lia|]. split; lia.
        + intros. congruence.
      - simpl. set (n' := with_ref n (n_ref n + 1)).
        destruct (stk_facts s (put h n' s) t (finish x h ks k ++ rest) eq_refl) as [H1 H2].
        set (s' := set_stack t _ (put h n' s)) in *.
        eapply (counter s s' t (finish x h ks k ++ rest) h n n'); try done.
        + eapply (InvS_same _ _ _ s); try done.
          * intros _. rewrite Hst. lsimp. lia.
          * eapply (making_same s); try done. intros y. rewrite Hst. lsimp. lia.
        + intros a Hne. change (vsum a s') with (vsum a s). rewrite Hst. lsimp. rewrite at_ne by done. lia.
        + intros a Hne. rewrite Hst. lsimp. done.
        + intros a Hne. rewrite Hst. lsimp. done.
        + intros a Hne. rewrite Hst. lsimp. by rewrite at_ne.
        + intros a. rewrite Hst. lsimp. done.
        + intros _ Hr1 Hd1.
          assert (Hc : cnt s' h = S (cnt s h)).
          { specialize (H2 (own h)). rewrite Hst in H2. revert H2. lsimp. rewrite at_eq.
            pose proof (hsum_put s s' h n n' h (proj1 (proj1 (entry_heap _ s h n) Hn)) eq_refl) as E.
            rewrite !ncount_linked in E by done. simpl in E.
            unfold CoreInv.cnt. change (vsum h s') with (vsum h s). lia. }
          assert (Hp : tsum (pend h) s' = tsum (pend h) s).
          { specialize (H2 (pend h)). rewrite Hst in H2. revert H2. lsimp. lia. }
          assert (Ha : tsum (addel h) s' = tsum (addel h) s).
          { specialize (H2 (addel h)). rewrite Hst in H2. revert H2. lsimp. lia. }
          rewrite Hc, Hp, Ha. simpl. rewrite bool_decide_true in Hd1 by lia. simpl in Hd1.
          split; [lia|]. split; lia.
        + intros. congruence.
    Qed.

    Lemma ex_adddel x h ks k : stack s t = IAddDel x h ks k :: rest →
      res_ok (exec P FS cfg s t (IAddDel x h ks k) rest c).
    Proof using Type*.
      intros Hst. simpl. pose proof HI as [HH HC HS].
      assert (Htl : Forall simple rest) by (by eapply (i_tail _ _ _ _ HS)).
      pose proof (i_head _ _ _ _ _ HC _ _ _ Hst) as (n&Hn&Hnk&Hd). simpl in *.
      assert (Hlk : n_linked n = true) by (by apply entry_heap in Hn as [_ ?]).
      assert (Hb : bind_ok s (IBind x h k)) by (exists n; done).
      assert (Htl' : tail_ok (finish x h ks k ++ rest)).
      { unfold finish. simpl. rewrite <- app_assoc. apply tail_app. constructor; done. }
      assert (Hnew : new_ok s (stack s t) (finish x h ks k ++ rest)).
      { split; [done|]. rewrite Hst. unfold finish. inold. }
      assert (Et : trk cfg = true).
      { eapply (i_trk _ _ _ _ _ HC t (IAddDel x h ks k)). rewrite Hst. by left. }
      rewrite Hn. simpl. set (n' := with_del n (n_del n + 1)).
      destruct (stk_facts s (put h n' s) t (finish x h ks k ++ rest) eq_refl) as [H1 H2].
      set (s' := set_stack t _ (put h n' s)) in *.
      eapply (counter s s' t (finish x h ks k ++ rest) h n n'); try done.
      - eapply (InvS_same _ _ _ s); try done.
        + intros _. rewrite Hst. lsimp. lia.
        + eapply (making_same s); try done. intros y. rewrite Hst. lsimp. lia.
      - intros a Hne. change (vsum a s') with (vsum a s). rewrite Hst. lsimp. rewrite at_ne by done. lia.
      - intros a Hne. rewrite Hst. lsimp. done.
      - intros a Hne. rewrite Hst. lsimp. by rewrite at_ne.
      - intros a Hne. rewrite Hst. lsimp. by rewrite at_ne.
      - intros a. rewrite Hst. lsimp. done.
      - intros _ Hr1 Hd1.
        assert (Hc : cnt s' h = cnt s h).
        { specialize (H2 (own h)). rewrite Hst in H2. revert H2. lsimp. rewrite at_eq.
          pose proof (hsum_put s s' h n n' h (proj1 (proj1 (entry_heap _ s h n) Hn)) eq_refl) as E.
          rewrite !ncount_linked in E by done. simpl in E.
          unfold CoreInv.cnt. change (vsum h s') with (vsum h s). lia. }
        assert (Hc1 : 0 < cnt s h).
        { pose proof (tsum_elem _ (own h) s t (IAddDel x h ks k)) as Hge. rewrite Hst in Hge.
          simpl in Hge. rewrite at_eq in Hge. unfold CoreInv.cnt.
          assert (1 + occ h ks ≤ tsum (own h) s) by (apply Hge; by left). lia. }
        assert (Hp : tsum (pend h) s' = tsum (pend h) s).
        { specialize (H2 (pend h)). rewrite Hst in H2. revert H2. lsimp. lia. }
        assert (Ha : S (tsum (addel h) s') = tsum (addel h) s).
        { specialize (H2 (addel h)). rewrite Hst in H2. revert H2. lsimp. rewrite at_eq. lia. }
        rewrite Hc, Hp. simpl. split; [done|]. split; [|lia]. lia.
      - intros. congruence.
    Qed.

    Lemma ex_release h : stack s t = IRelease h :: rest →
      res_ok (exec P FS cfg s t (IRelease h) rest c).
    Proof using Type*.
      intros Hst. simpl. pose proof HI as [HH HC HS].
      assert (Htl : Forall simple rest) by (by eapply (i_tail _ _ _ _ HS)).
      assert (Hc1 : 0 < cnt s h).
      { pose proof (tsum_elem _ (own h) s t (IRelease h)) as Hge. rewrite Hst in Hge.
        simpl in Hge. rewrite at_eq in Hge. unfold CoreInv.cnt.
        assert (1 ≤ tsum (own h) s) by (apply Hge; by left). lia. }
      destruct (i_hnd _ _ _ _ _ HC h Hc1) as (n&Hn&Hd).
      assert (Hlk : n_linked n = true) by (by apply entry_heap in Hn as [_ ?]).
      assert (Htl' : tail_ok rest) by (destruct Htl; done).
      assert (Hnew : new_ok s (stack s t) rest).
      { split; [|rewrite Hst; inold]. destruct Htl as [|i l Hi]; [done|]. destruct i; done. }
      destruct (trk cfg) eqn:Et.
      2:{ simpl. destruct (stk_facts s s t rest eq_refl) as [H1 H2].
        eapply (plain s _ t); try done.
        - eapply (InvS_same _ _ _ s); try done.
          + intros _. rewrite Hst. lsimp. lia.
          + eapply (making_same s); try done. intros y. rewrite Hst. lsimp. lia.
        - intros a. destruct (decide (a = h)) as [->|Hne]; [right; split; [done|right; by eauto]|left].
          rewrite vsum_stack. rewrite Hst. lsimp. rewrite at_ne by done. lia.
        - intros a. rewrite Hst. lsimp. done.
        - intros a. rewrite Hst. lsimp. done.
        - intros a. rewrite Hst. lsimp. done.
        - congruence.
        - intros. congruence. }
      rewrite Hn. case_decide as Hr.
      - simpl. set (n' := with_ref n (n_ref n - 1)).
        destruct (stk_facts s (put h n' s) t (ILockCheck h :: rest) eq_refl) as [H1 H2].
        set (s' := set_stack t _ (put h n' s)) in *.
        eapply (counter s s' t (ILockCheck h :: rest) h n n'); try done.
        + eapply (InvS_same _ _ _ s); try done.
          * intros _. rewrite Hst. lsimp. lia.
          * eapply (making_same s); try done. intros y. rewrite Hst. lsimp. lia.
        + split; [done|]. rewrite Hst. inold.
        + intros a Hne. change (vsum a s') with (vsum a s). rewrite Hst. lsimp. rewrite at_ne by done. lia.
        + intros a Hne. rewrite Hst. lsimp. by rewrite at_ne.
        + intros a Hne. rewrite Hst. done.
        + intros a Hne. rewrite Hst. done.
        + intros a. rewrite Hst. done.
        + intros _ Hr1 Hd1.
          assert (Hc : S (cnt s' h) = cnt s h).
          { specialize (H2 (own h)). rewrite Hst in H2. revert H2. lsimp. rewrite at_eq.
            pose proof (hsum_put s s' h n n' h (proj1 (proj1 (entry_heap _ s h n) Hn)) eq_refl) as E.
            rewrite !ncount_linked in E by done. simpl in E.
            unfold CoreInv.cnt. change (vsum h s') with (vsum h s). lia. }
          assert (Hp : tsum (pend h) s' = S (tsum (pend h) s)).
          { specialize (H2 (pend h)). rewrite Hst in H2. revert H2. lsimp. rewrite at_eq. lia. }
          assert (Ha : tsum (addel h) s' = tsum (addel h) s).
          { specialize (H2 (addel h)). rewrite Hst in H2. revert H2. lsimp. lia. }
          assert (cnt s' h = 0) as Hz by lia. rewrite bool_decide_true in Hd1 by lia.
          rewrite Hz, Hp, Ha. simpl in *. split; [lia|]. split; lia.
        + intros. congruence.
      - simpl. set (n' := with_ref n (n_ref n - 1)).
        destruct (stk_facts s (put h n' s) t rest eq_refl) as [H1 H2].
        set (s' := set_stack t _ (put h n' s)) in *.
        eapply (counter s s' t rest h n n'); try done.
        + eapply (InvS_same _ _ _ s); try done.
          * intros _. rewrite Hst. lsimp. lia.
          * eapply (making_same s); try done. intros y. rewrite Hst. lsimp. lia.
        + intros a Hne. change (vsum a s') with (vsum a s). rewrite Hst. lsimp. rewrite at_ne by done. lia.
        + intros a Hne. rewrite Hst. done.
        + intros a Hne. rewrite Hst. done.
        + intros a Hne. rewrite Hst. done.
        + intros a. rewrite Hst. done.
        + intros _ Hr1 Hd1.
          assert (Hc : S (cnt s' h) = cnt s h).
          { specialize (H2 (own h)). rewrite Hst in H2. revert H2. lsimp. rewrite at_eq.
            pose proof (hsum_put s s' h n n' h (proj1 (proj1 (entry_heap _ s h n) Hn)) eq_refl) as E.
            rewrite !ncount_linked in E by done. simpl in E.
            unfold CoreInv.cnt. change (vsum h s') with (vsum h s). lia. }
          assert (Hp : tsum (pend h) s' = tsum (pend h) s).
          { specialize (H2 (pend h)). rewrite Hst in H2. revert H2. lsimp. lia. }
          assert (Ha : tsum (addel h) s' = tsum (addel h) s).
          { specialize (H2 (addel h)). rewrite Hst in H2. revert H2. lsimp. lia. }
          rewrite bool_decide_true in Hd1 by lia. rewrite bool_decide_true by lia.
          rewrite Hp, Ha. simpl in *. split; [lia|]. split; lia.
        + intros. congruence.
    Qed.

    Lemma ex_check h : stack s t = ICheck h :: rest →
      res_ok (exec P FS cfg s t (ICheck h) rest c).
    Proof using Type*.
      intros Hst. simpl. pose proof HI as [HH HC HS].
      assert (Htl : Forall simple rest) by (by eapply (i_tail _ _ _ _ HS)).
      assert (Hp1 : 0 < tsum (pend h) s).
      { pose proof (tsum_elem _ (pend h) s t (ICheck h)) as Hge. rewrite Hst in Hge.
        simpl in Hge. rewrite at_eq in Hge. apply Hge. by left. }
      assert (Et : trk cfg = true).
      { eapply (i_trk _ _ _ _ _ HC t (ICheck h)). rewrite Hst. by left. }
      destruct (i_pend _ _ _ _ _ HC h Hp1) as (n&Hn&Hd).
      assert (Hlk : n_linked n = true) by (by apply entry_heap in Hn as [_ ?]).
      assert (Hhp : heap s !! h = Some n) by (by apply entry_heap in Hn as [? _]).
      assert (Hdel := i_del _ _ _ _ _ HC Et _ _ Hn).
      rewrite (addel_only P FS cfg eqv good Heq HP t0 s t _ rest h HS Hst) in Hdel by done. simpl in Hdel.
      rewrite Hn. destruct (decide ((n_del n - 1)%Z = 0%Z)) as [Hz|Hz].
      - assert (Hc0 : cnt s h = 0).
        { destruct (Nat.eq_dec (cnt s h) 0) as [|Hnz]; [done|].
          rewrite bool_decide_true in Hdel by lia. simpl in Hdel. lia. }
        assert (Hpe1 : tsum (pend h) s = 1).
        { rewrite Hc0 in Hdel. simpl in Hdel. lia. }
        simpl. set (n1 := with_del n (n_del n - 1)). set (s1 := add_log _ _).
        set (new := (map IRelease (p_kids P (n_rep n)) ++ [IFree h]) ++ IUnlock :: rest).
        destruct (stk_facts s s1 t new eq_refl) as [H1 H2].
        set (s' := set_stack t new s1) in *.
        assert (He : ∀ b, entry s' b = if decide (b = h) then None else entry s b).
        { intros b. change (entry (put h (unlinked n1) s) b =
            if decide (b = h) then None else entry s b). by rewrite entry_put. }
        assert (Hsim : Forall simple new).
        { unfold new. rewrite <- app_assoc. apply tail_app. simpl. constructor; [done|constructor; done]. }
        split.
        + apply (InvH_shape P FS eqv good Heq HF (set_cont (f_unlink FS (cont s) (kview s) h) (put h (unlinked n1) s)));
            [by apply same_shape_heap|done|done|].
          by eapply InvH_erase.
        + eapply (C_erase P FS cfg eqv good Heq HP t0 s s'); try done.
          * intros i Hi. unfold new in Hi. revert i Hi. rewrite Hst. inold.
          * specialize (H2 (pend h)). rewrite Hst in H2. unfold new in H2. revert H2. lsimp. rewrite at_eq. lia.
          * intros a. specialize (H2 (own a)). rewrite Hst in H2. unfold new in H2. revert H2. lsimp.
            pose proof (hsum_put s s' _ _ (unlinked n1) a Hhp eq_refl) as E.
            rewrite ncount_linked in E by done. change (ncount a (unlinked n1)) with 0 in E.
            unfold CoreInv.cnt. change (vsum a s') with (vsum a s). lia.
          * intros a Hne. specialize (H2 (pend a)). rewrite Hst in H2. unfold new in H2. revert H2. lsimp.
            rewrite at_ne by done. lia.
          * intros a Hne. specialize (H2 (addel a)). rewrite Hst in H2. unfold new in H2. revert H2. lsimp. lia.
          * intros a. specialize (H2 (freeing a)). rewrite Hst in H2. unfold new in H2. revert H2. lsimp.
            rewrite (i_free _ _ _ _ _ HC). simpl. destruct (decide (a = h)) as [->|Hne].
            -- rewrite Hhp, lookup_insert, at_eq. simpl. rewrite Hlk. simpl. lia.
            -- rewrite lookup_insert_ne by done. rewrite at_ne by done. lia.
        + eapply (InvS_same _ _ _ s); try done.
          * destruct Hsim; done.
          * intros _. rewrite Hst. unfold new. lsimp. lia.
          * eapply making_same; try done. intros y. rewrite Hst. unfold new. lsimp. lia.
      - simpl. set (n' := with_del n (n_del n - 1)).
        destruct (stk_facts s (put h n' s) t (IUnlock :: rest) eq_refl) as [H1 H2].
        set (s' := set_stack t _ (put h n' s)) in *.
        eapply (counter s s' t (IUnlock :: rest) h n n'); try done.
        + eapply (InvS_same _ _ _ s); try done.
          * intros _. rewrite Hst. lsimp. lia.
          * eapply (making_same s); try done. intros y. rewrite Hst. lsimp. lia.
        + split; [done|]. rewrite Hst. inold.
        + intros a Hne. change (vsum a s') with (vsum a s). rewrite Hst. done.
        + intros a Hne. rewrite Hst. lsimp. by rewrite at_ne.
        + intros a Hne. rewrite Hst. done.
        + intros a Hne. rewrite Hst. done.
        + intros a. rewrite Hst. done.
        + intros _ Hr1 Hd1.
          assert (Hc : cnt s' h = cnt s h).
          { specialize (H2 (own h)). rewrite Hst in H2. revert H2. lsimp.
            pose proof (hsum_put s s' h n n' h Hhp eq_refl) as E.
            rewrite !ncount_linked in E by done. simpl in E.
            unfold CoreInv.cnt. change (vsum h s') with (vsum h s). lia. }
          assert (Hp : S (tsum (pend h) s') = tsum (pend h) s).
          { specialize (H2 (pend h)). rewrite Hst in H2. revert H2. lsimp. rewrite at_eq. lia. }
          assert (Ha : tsum (addel h) s' = tsum (addel h) s).
          { specialize (H2 (addel h)). rewrite Hst in H2. revert H2. lsimp. lia. }
          rewrite Hc, Ha. simpl. split; [done|]. split; [lia|].
          destruct (Nat.eq_dec (cnt s h) 0) as [E|]; [|lia]. rewrite E in Hdel. simpl in *. lia.
        + intros. congruence.
    Qed.

    Lemma ex_free h : stack s t = IFree h :: rest →
      res_ok (exec P FS cfg s t (IFree h) rest c).
    Proof using Type*.
      intros Hst. simpl. pose proof HI as [HH HC HS].
      assert (Htl : Forall simple rest) by (by eapply (i_tail _ _ _ _ HS)).
      assert (Htl' : tail_ok rest) by (destruct Htl; done).
      assert (Hnew : new_ok s (stack s t) rest).
      { split; [|rewrite Hst; inold]. destruct Htl as [|i l Hi]; [done|]. destruct i; done. }
      assert (Hf1 : 0 < tsum (freeing h) s).
      { pose proof (tsum_elem _ (freeing h) s t (IFree h)) as Hge. rewrite Hst in Hge.
        simpl in Hge. rewrite at_eq in Hge. apply Hge. by left. }
      pose proof (i_free _ _ _ _ _ HC h) as Hfr. destruct (heap s !! h) as [n|] eqn:Hh; [|lia].
      destruct (n_linked n) eqn:Hl; [simpl in Hfr; lia|]. simpl in Hfr. simpl.
      destruct (stk_facts s (set_heap (delete h (heap s)) s) t rest eq_refl) as [H1 H2].
      set (s' := set_stack t rest _) in *.
      assert (He : ∀ a, entry s' a = entry s a).
      { intros a. unfold entry. simpl. destruct (decide (a = h)) as [->|Hne].
        - by rewrite lookup_delete, Hh, Hl.
        - by rewrite lookup_delete_ne. }
      assert (Hsh : same_shape s s').
      { split; intros a m; rewrite He; eauto. }
      assert (Hcnt : ∀ a, cnt s' a = cnt s a).
      { intros a. specialize (H2 (own a)). rewrite Hst in H2. revert H2. lsimp.
        pose proof (msum_delete (ncount a) _ _ _ Hh) as E.
        assert (ncount a n = 0) by (unfold CoreInv.ncount; by rewrite Hl).
        unfold CoreInv.cnt, CoreInv.hsum. change (vsum a s') with (vsum a s). simpl. lia. }
      assert (Hpe : ∀ a, tsum (pend a) s' = tsum (pend a) s).
      { intros a. specialize (H2 (pend a)). rewrite Hst in H2. revert H2. lsimp. lia. }
      assert (Had : ∀ a, tsum (addel a) s' = tsum (addel a) s).
      { intros a. specialize (H2 (addel a)). rewrite Hst in H2. revert H2. lsimp. lia. }
      assert (Hpi : ∀ a, tsum (pin a) s' = tsum (pin a) s).
      { intros a. specialize (H2 (pin a)). rewrite Hst in H2. revert H2. lsimp. lia. }
      split.
      - by eapply (InvH_shape P FS eqv good Heq HF s).
      - eapply (C_shape P FS cfg eqv s s' t rest); try done.
        + intros a. rewrite Hcnt. tauto.
        + intros a. rewrite Hpe. tauto.
        + intros Et a m. rewrite He, Hcnt. by apply HC.
        + intros Et a m. rewrite He, Hcnt, Had, Hpe. by apply HC.
        + intros Et a m. rewrite He, Hcnt, Hpe, Hpi. by apply HC.
        + intros a m. rewrite Hcnt, Hpe. done.
        + intros. congruence.
        + intros a. specialize (H2 (freeing a)). rewrite Hst in H2. revert H2. lsimp. simpl.
          pose proof (i_free _ _ _ _ _ HC a). destruct (decide (a = h)) as [->|Hne].
          * rewrite lookup_delete, at_eq. lia.
          * rewrite lookup_delete_ne, at_ne by done. lia.
      - eapply (InvS_same _ _ _ s); try done.
        + intros _. rewrite Hst. done.
        + eapply making_same; try done. intros y. rewrite Hst. done.
    Qed.

    Lemma making_one x i : i ∈ stack s t → making x i = 1 → vars s !! x = Some None.
    Proof using Type*.
      intros Hi Hm. destruct HI as [HH HC HS].
      pose proof (tsum_elem _ (making x) s t i Hi). pose proof (i_vars _ _ _ _ HS x) as E.
      destruct (vars s !! x) as [[?|]|]; [lia|done|lia].
    Qed.

    Lemma ex_bind x h k : stack s t = IBind x h k :: rest →
      res_ok (exec P FS cfg s t (IBind x h k) rest c).
    Proof using Type*.
      intros Hst. simpl. pose proof HI as [HH HC HS].
      assert (Htl : Forall simple rest) by (by eapply (i_tail _ _ _ _ HS)).
      assert (Htl' : tail_ok rest) by (destruct Htl; done).
      assert (Hnew : new_ok s (stack s t) rest).
      { split; [|rewrite Hst; inold]. destruct Htl as [|i l Hi]; [done|]. destruct i; done. }
      assert (Hx : vars s !! x = Some None).
      { apply (making_one x (IBind x h k)); [rewrite Hst; by left|]. simpl. apply at_eq. }
      destruct (stk_facts s (set_vars (<[x:=Some h]> (vars s)) s) t rest eq_refl) as [H1 H2].
      set (s1 := set_stack t rest _) in *. set (s' := add_log _ s1).
      assert (H2' : ∀ f, tsum f s' + lsum f (stack s t) = tsum f s + lsum f rest) by exact H2.
      eapply (plain s s' t rest); try done.
      - eapply (InvS_same _ _ _ s s' t rest); try done.
        + intros _. rewrite Hst. lsimp. lia.
        + intros y. specialize (H2' (making y)). rewrite Hst in H2'. revert H2'. lsimp.
          pose proof (i_vars _ _ _ _ HS y). destruct (decide (y = x)) as [->|Hne].
          * rewrite Hx in H. rewrite lookup_insert, at_eq. lia.
          * rewrite lookup_insert_ne, at_ne by done. lia.
      - intros a. left. rewrite Hst. lsimp.
        pose proof (msum_upd (vcount a) _ _ _ (Some h) Hx) as E. simpl in E.
        unfold CoreInv.vsum. simpl. lia.
      - intros a. by rewrite Hst.
      - intros a. by rewrite Hst.
      - intros a. by rewrite Hst.
      - intros _ a. by rewrite Hst.
      - intros. congruence.
    Qed.

    Lemma ex_abort x : stack s t = IAbort x :: rest →
      res_ok (exec P FS cfg s t (IAbort x) rest c).
    Proof using Type*.
      intros Hst. simpl. pose proof HI as [HH HC HS].
      assert (Htl : Forall simple rest) by (by eapply (i_tail _ _ _ _ HS)).
      assert (Htl' : tail_ok rest) by (destruct Htl; done).
      assert (Hnew : new_ok s (stack s t) rest).
      { split; [|rewrite Hst; inold]. destruct Htl as [|i l Hi]; [done|]. destruct i; done. }
      assert (Hx : vars s !! x = Some None).
      { apply (making_one x (IAbort x)); [rewrite Hst; by left|]. simpl. apply at_eq. }
      destruct (stk_facts s (set_vars (delete x (vars s)) s) t rest eq_refl) as [H1 H2].
      set (s1 := set_stack t rest _) in *. set (s' := add_log _ s1).
      assert (H2' : ∀ f, tsum f s' + lsum f (stack s t) = tsum f s + lsum f rest) by exact H2.
      eapply (plain s s' t rest); try done.
      - eapply (InvS_same _ _ _ s s' t rest); try done.
        + intros _. rewrite Hst. lsimp. lia.
        + intros y. specialize (H2' (making y)). rewrite Hst in H2'. revert H2'. lsimp.
          pose proof (i_vars _ _ _ _ HS y). destruct (decide (y = x)) as [->|Hne].
          * rewrite Hx in H. rewrite lookup_delete, at_eq. lia.
          * rewrite lookup_delete_ne, at_ne by done. lia.
      - intros a. left. rewrite Hst. lsimp.
        pose proof (msum_delete (vcount a) _ _ _ Hx) as E. simpl in E.
        unfold CoreInv.vsum. simpl. lia.
      - intros a. by rewrite Hst.
      - intros a. by rewrite Hst.
      - intros a. by rewrite Hst.
      - intros _ a. by rewrite Hst.
      - intros. congruence.
    Qed.

    Lemma exec_ok i : stack s t = i :: rest → res_ok (exec P FS cfg s t i rest c).
    Proof using Type*.
      intros Hst. destruct i.
      - by apply ex_lockfind.
      - by apply ex_find.
      - by apply ex_visit.
      - by apply ex_addref.
      - by apply ex_adddel.
      - by apply ex_unlock.
      - by apply ex_release.
      - by apply ex_lockcheck.
      - by apply ex_check.
      - by apply ex_free.
      - by apply ex_bind.
      - by apply ex_abort.
    Qed.
  End branch.
End Step.
