(** Progress, termination and lock discipline of the core machine. *)
From Verif Require Export CoreProps.

Lemma occ_remove a (l : list nat) b : b ∈ l → ∃ l', l ≡ₚ b :: l' ∧ occ a l = (if decide (a = b) then 1 else 0) + occ a l'.
Proof.
  intros (l1&l2&->)%elem_of_list_split. exists (l1 ++ l2). split; [by rewrite Permutation_middle|].
  rewrite !occ_app, occ_cons. lia.
Qed.
Lemma occ_length (l k : list nat) : (∀ a, occ a l = occ a k) → length l = length k.
Proof.
  revert k. induction l as [|b l IH]; intros k H.
  - destruct k as [|c k]; [done|]. specialize (H c). rewrite occ_nil, occ_cons, decide_True in H by done. lia.
  - assert (Hb : b ∈ k). { apply occ_pos. rewrite <- H, occ_cons, decide_True by done. lia. }
    apply elem_of_list_split in Hb as (k1&k2&->). simpl.
    rewrite app_length. simpl. rewrite (IH (k1 ++ k2)), app_length; [lia|].
    intros a. specialize (H a). rewrite occ_cons, occ_app, occ_cons in H. rewrite occ_app. lia.
Qed.

Section Live.
  Context {K A R V : Type}.
  Context (P : policy K A R V) (FS : factory K) (cfg : config).
  Context (eqv : K → K → bool) (good : R → Prop).
  Context (Heq : equivalence eqv) (HP : policy_ok eqv good P) (HF : factory_spec eqv FS).
  Context (t0 : tid).

  Notation state := (state (R:=R) (K:=K) (A:=A) FS).
  Notation instr := (instr (K:=K) (A:=A) (R:=R)).
  Notation node := (node (R:=R)).
  Notation label := (label (A:=A)).
  Notation tsum := (tsum FS).
  Notation cnt := (cnt P FS).
  Notation Inv := (Inv P FS cfg eqv good HF t0).
  Notation allowed := (allowed cfg t0).
  Notation step := (step P FS cfg).
  Notation run := (run P FS cfg).
  Notation reachable := (reachable P FS cfg t0).
  Implicit Types (s : state) (n m : node) (a b h : addr) (t : tid) (i : instr) (l : label).

  (** remaining work *)
  Definition wt (i : instr) : nat :=
    match i with
    | ILockFind _ _ r => 5 * length (p_kids P r) + 8
    | IFind _ _ r => 5 * length (p_kids P r) + 7
    | IVisit _ _ _ ks _ => 5 * length ks + 5
    | IAddRef _ _ ks _ => 5 * length ks + 4
    | IAddDel _ _ ks _ => 5 * length ks + 3
    | IRelease _ => 5
    | ILockCheck _ => 4
    | ICheck _ => 3
    | IUnlock | IFree _ | IBind _ _ _ | IAbort _ => 1
    end.
  Definition nwt (n : node) : nat := if n_linked n then 5 * length (p_kids P (n_rep n)) + 1 else 0.
  Definition work s : nat := tsum wt s + msum nwt (heap s).

  Lemma wt_release (ks : list addr) : lsum wt (map IRelease ks) = 5 * length ks.
  Proof. induction ks; simpl; rewrite ?lsum_nil, ?lsum_cons; simpl; [done|]. rewrite IHks. lia. Qed.

  Ltac lw := unfold finish, unwind; repeat (progress (rewrite ?lsum_cons, ?lsum_app, ?lsum_nil, ?wt_release; simpl)).

  Lemma work_put s h n n' : heap s !! h = Some n → nwt n' = nwt n →
    msum nwt (<[h:=n']> (heap s)) = msum nwt (heap s).
  Proof. intros Hh E. pose proof (msum_upd nwt _ _ _ n' Hh). lia. Qed.

  Lemma work_dec s t c s' : Inv s → allowed t → step s (LRun t c) = Next s' → work s' < work s.
  Proof.
    intros HI Hal. simpl. destruct (stack s t) as [|i rest] eqn:Hst; [done|]. intros He.
    pose proof HI as [HH HC HS].
    pose proof (i_head _ _ _ _ _ HC _ _ _ Hst) as Hhd. unfold work.
    assert (Hset : ∀ s1 new, stacks s1 = stacks s → tsum wt (set_stack t new s1) + lsum wt (i :: rest) = tsum wt s + lsum wt new).
    { intros s1 new E. destruct (stk_facts FS s s1 t new E) as [_ H2]. rewrite <- Hst. apply H2. }
    destruct i as [x p r|x p r|x h p ks k|x h ks k|x h ks k| |h|h|h|h|x h k|x]; simpl in He, Hhd.
    - unfold acquire in He. repeat case_match; simplify_eq; simpl.
      all: match goal with |- context[tsum _ (set_stack _ ?new ?s1)] =>
        specialize (Hset s1 new eq_refl) end; revert Hset; lw; lia.
    - destruct (c_throw c).
      { simplify_eq. specialize (Hset s (unwind x (p_kids P r) ++ rest) eq_refl). revert Hset. lw. lia. }
      destruct (f_find FS (cont s) (kview P s) (p_key P r)) as [h| |] eqn:Hf; simplify_eq.
      + specialize (Hset (set_cont (f_hit FS (cont s) h) s) (IVisit x h p (p_kids P r) (p_key P r) :: rest) eq_refl). revert Hset. lw. lia.
      + destruct (heap s !! c_addr c) eqn:Ha; simplify_eq.
        match goal with |- context[tsum _ (set_stack _ ?new ?s1)] => specialize (Hset s1 new eq_refl) end.
        simpl. rewrite msum_new by done. revert Hset. lw. unfold nwt at 1. simpl. lia.
    - destruct Hhd as (n&Hn&Hnk&Hmk). rewrite Hn in He.
      pose proof Hn as [Hh Hl]%entry_heap.
      destruct (p_val P (n_rep n)) as [v|] eqn:Hv.
      { simplify_eq. specialize (Hset s (IAddRef x h ks k :: rest) eq_refl). revert Hset. lw. lia. }
      destruct (c_throw c); simplify_eq.
      + match goal with |- context[tsum _ (set_stack _ ?new ?s1)] => specialize (Hset s1 new eq_refl) end.
        pose proof (msum_upd nwt _ _ _ (unlinked n) Hh) as E. simpl. unfold nwt at 2 4 in E. simpl in E. rewrite Hl in E.
        revert Hset. lw. lia.
      + destruct Hmk as [ks0 Hmk]; [done|].
        destruct (po_build _ _ _ HP _ _ _ Hmk Hv) as (Hbv&Hbg&Hbk&Hbo).
        specialize (Hset (put h (with_rep n (p_build P p (n_rep n))) s) (IAddRef x h ks k :: rest) eq_refl).
        simpl. rewrite (work_put _ _ _ (with_rep n (p_build P p (n_rep n))) Hh).
        * revert Hset. lw. unfold CoreInv.tsum. simpl. lia.
        * unfold nwt. simpl. rewrite Hl. by rewrite (occ_length _ _ Hbo).
    - destruct (trk cfg).
      + destruct (entry s h) as [n|] eqn:Hn; [|done]. pose proof Hn as [Hh Hl]%entry_heap.
        case_decide; simplify_eq; simpl; rewrite (work_put _ _ _ (with_ref n (n_ref n + 1)) Hh) by done;
        match goal with |- context[tsum _ (set_stack _ ?new ?s1)] => specialize (Hset s1 new eq_refl) end;
        revert Hset; lw; lia.
      + simplify_eq. specialize (Hset s (finish x h ks k ++ rest) eq_refl). revert Hset. lw. lia.
    - destruct (entry s h) as [n|] eqn:Hn; [|done]. pose proof Hn as [Hh Hl]%entry_heap. simplify_eq. simpl.
      rewrite (work_put _ _ _ (with_del n (n_del n + 1)) Hh) by done.
      match goal with |- context[tsum _ (set_stack _ ?new ?s1)] => specialize (Hset s1 new eq_refl) end.
      revert Hset; lw; lia.
    - unfold unlock in He. repeat case_match; simplify_eq; simpl.
      all: match goal with |- context[tsum _ (set_stack _ ?new ?s1)] =>
        specialize (Hset s1 new eq_refl) end; revert Hset; lw; lia.
    - destruct (trk cfg).
      + destruct (entry s h) as [n|] eqn:Hn; [|done]. pose proof Hn as [Hh Hl]%entry_heap.
        case_decide; simplify_eq; simpl; rewrite (work_put _ _ _ (with_ref n (n_ref n - 1)) Hh) by done;
        match goal with |- context[tsum _ (set_stack _ ?new ?s1)] => specialize (Hset s1 new eq_refl) end;
        revert Hset; lw; lia.
      + simplify_eq. specialize (Hset s rest eq_refl). revert Hset. lw. lia.
    - unfold acquire in He. repeat case_match; simplify_eq; simpl.
      all: match goal with |- context[tsum _ (set_stack _ ?new ?s1)] =>
        specialize (Hset s1 new eq_refl) end; revert Hset; lw; lia.
    - destruct (entry s h) as [n|] eqn:Hn; [|done]. pose proof Hn as [Hh Hl]%entry_heap.
      destruct (decide ((n_del n - 1)%Z = 0%Z)) as [Hz|Hz]; simplify_eq.
      + match goal with |- context[tsum _ (set_stack _ ?new ?s1)] => specialize (Hset s1 new eq_refl) end.
        pose proof (msum_upd nwt _ _ _ (unlinked (with_del n (n_del n - 1))) Hh) as E. simpl.
        unfold nwt at 2 4 in E. simpl in E. rewrite Hl in E. revert Hset. lw. lia.
      + simpl. rewrite (work_put _ _ _ (with_del n (n_del n - 1)) Hh) by done.
        match goal with |- context[tsum _ (set_stack _ ?new ?s1)] => specialize (Hset s1 new eq_refl) end.
        revert Hset; lw; lia.
    - destruct (heap s !! h) as [n|] eqn:Hh; [|done]. destruct (n_linked n) eqn:Hl; simplify_eq. simpl.
      pose proof (msum_delete nwt _ _ _ Hh). specialize (Hset (set_heap (delete h (heap s)) s) rest eq_refl).
      revert Hset. lw. lia.
    - simplify_eq. specialize (Hset (set_vars (<[x:=Some h]> (vars s)) s) rest eq_refl).
      revert Hset. lw. unfold CoreInv.tsum. simpl. lia.
    - simplify_eq. specialize (Hset (set_vars (delete x (vars s)) s) rest eq_refl).
      revert Hset. lw. unfold CoreInv.tsum. simpl. lia.
  Qed.

  (** number of effective steps of a schedule *)
  Fixpoint effective s (ls : list label) : nat :=
    match ls with
    | [] => 0
    | l :: ls => match step s l with Next s' => S (effective s' ls) | Stuck => effective s ls | Undef => 0 end
    end.

  Lemma bounded_run s ls : Inv s → Forall (λ l, allowed (label_tid l)) ls → Forall is_run ls →
    effective s ls ≤ work s.
  Proof.
    revert s. induction ls as [|l ls IH]; intros s HI Ha Hr; simpl; [lia|].
    inversion Ha; subst. inversion Hr; subst. destruct l as [|t c]; [done|].
    pose proof (step_ok P FS cfg eqv good Heq HP HF t0 s (LRun t c) HI H1) as Hok. unfold res_ok in Hok.
    destruct (step s (LRun t c)) as [s1| |] eqn:E; [|by apply IH|lia].
    pose proof (work_dec _ _ _ _ HI H1 E). assert (effective s1 ls ≤ work s1) by (by apply IH). lia.
  Qed.

  (** C23: the owner of the lock, or anyone when it is free, can step *)
  Lemma can_step s t : Inv s → allowed t → stack s t ≠ [] →
    (lck cfg = true → match lock s with None => True | Some (t', _) => t' = t end) →
    ∃ c s', c_throw c = false ∧ step s (LRun t c) = Next s'.
  Proof.
    intros HI Hal Hne Hlk. pose proof HI as [HH HC HS].
    set (c := Choice (fresh (dom (heap s))) false). exists c.
    assert (Hfr : heap s !! c_addr c = None). { apply not_elem_of_dom. apply is_fresh. }
    pose proof (step_ok P FS cfg eqv good Heq HP HF t0 s (LRun t c) HI Hal) as Hok.
    destruct (step s (LRun t c)) as [s'| |] eqn:E; [by eauto| |done]. exfalso.
    simpl in E. destruct (stack s t) as [|i rest] eqn:Hst; [done|].
    assert (Hacq : acquire FS cfg s t ≠ None).
    { unfold acquire. destruct (lck cfg); [|done]. specialize (Hlk eq_refl).
      destruct (lock s) as [[t' n]|]; [|done]. subst. by rewrite decide_True. }
    destruct i; simpl in E; fold c in E.
    - by destruct (acquire FS cfg s t).
    - destruct (f_find FS (cont s) (kview P s) (p_key P r)); simplify_eq. simpl in Hfr. by rewrite Hfr in E.
    - destruct (entry s h); [|done]. destruct (p_val P (n_rep n)); done.
    - destruct (trk cfg); [|done]. destruct (entry s h); [|done]. by case_decide.
    - by destruct (entry s h).
    - by destruct (unlock FS cfg s t).
    - destruct (trk cfg); [|done]. destruct (entry s h); [|done]. by case_decide.
    - by destruct (acquire FS cfg s t).
    - destruct (entry s h); [|done]. by case_decide.
    - destruct (heap s !! h); [|done]. by destruct (n_linked n).
    - done.
    - done.
  Qed.

  Lemma owner_busy s t d : Inv s → lck cfg = true → lock s = Some (t, d) → 0 < d ∧ lsum ulk (stack s t) = d ∧
    stack s t ≠ [].
  Proof.
    intros [HH HC HS] El Hl. pose proof (i_lock _ _ _ _ HS El) as L. rewrite Hl in L. destruct L as (?&?&_).
    split; [done|]. split; [done|]. intros E. rewrite E, lsum_nil in *. lia.
  Qed.

  Lemma progress s t : Inv s → stack s t ≠ [] → ∃ t' c s', allowed t' ∧ step s (LRun t' c) = Next s'.
  Proof.
    intros HI Hne. pose proof HI as [HH HC HS]. destruct (lck cfg) eqn:El.
    - assert (Hal : ∀ t, allowed t) by (intros ?; unfold CoreStep.allowed; congruence).
      destruct (lock s) as [[t' d]|] eqn:Hl.
      + destruct (owner_busy _ _ _ HI El Hl) as (_&_&Hb). exists t'.
        destruct (can_step s t') as (c&s'&_&?); [done|done|done|by rewrite Hl|]. eauto.
      + exists t. destruct (can_step s t) as (c&s'&_&?); [done|done|done|by rewrite Hl|]. eauto.
    - assert (t = t0) as ->.
      { destruct (decide (t = t0)); [done|]. destruct Hne. by apply (i_solo _ _ _ _ HS). }
      exists t0. destruct (can_step s t0) as (c&s'&_&?); [done|done|done|congruence|]. exists c, s'. done.
  Qed.

  Lemma can_finish s : Inv s → ∃ ls s', Forall (λ l, allowed (label_tid l)) ls ∧ Forall is_run ls ∧
    run s ls = Next s' ∧ quiescent s'.
  Proof.
    intros HI. remember (work s) as w eqn:Ew. revert s HI Ew. induction (lt_wf w) as [w _ IH]. intros s HI ->.
    destruct (decide (map_Exists (λ _ st, st ≠ []) (stacks s))) as [(t&st&Ht&Hne)|Hq].
    - destruct (progress s t) as (t'&c&s'&Hal&Hs); [done|unfold stack; by rewrite Ht|].
      pose proof (step_ok P FS cfg eqv good Heq HP HF t0 s (LRun t' c) HI Hal) as Hok. rewrite Hs in Hok. simpl in Hok.
      destruct (IH (work s')) with s' as (ls&s2&?&?&?&?); [by eapply work_dec|done|done|].
      exists (LRun t' c :: ls), s2. split_and!; [by constructor|by constructor| |done]. cbn [Core.run]. by rewrite Hs.
    - exists [], s. split_and!; try done. intros t. unfold stack. destruct (stacks s !! t) as [st|] eqn:Ht; [|done].
      simpl. destruct (decide (st = [])) as [|Hne]; [done|]. destruct Hq. by exists t, st.
  Qed.

  (** running one thread only *)
  Lemma other_stack s t c s' t' : step s (LRun t c) = Next s' → t' ≠ t → stack s' t' = stack s t'.
  Proof.
    simpl. destruct (stack s t) as [|i rest]; [done|]. intros He Hne.
    assert (Hset : ∀ s1 new, stacks s1 = stacks s → stack (set_stack t new s1) t' = stack s t').
    { intros s1 new E. rewrite stack_set, decide_False by done. unfold stack. by rewrite E. }
    destruct i; simpl in He; unfold acquire, unlock, erase in He; repeat case_match; simplify_eq/=;
      first [by apply Hset | (unfold stack; simpl; by rewrite lookup_insert_ne)].
  Qed.

  Lemma finish_alone s t : Inv s → allowed t →
    (lck cfg = true → match lock s with None => True | Some (t', _) => t' = t end) →
    ∃ cs s', Forall (λ c, c_throw c = false) cs ∧ run s (map (LRun t) cs) = Next s' ∧
      stack s' t = [] ∧ ∀ t', t' ≠ t → stack s' t' = stack s t'.
  Proof.
    intros HI Hal. remember (work s) as w eqn:Ew. revert s HI Ew.
    induction (lt_wf w) as [w _ IH]. intros s HI -> Hlk.
    destruct (decide (stack s t = [])) as [E|Hne].
    - exists [], s. done.
    - destruct (can_step s t) as (c&s'&Hc&Hs); [done..|].
      pose proof (step_ok P FS cfg eqv good Heq HP HF t0 s (LRun t c) HI Hal) as Hok. rewrite Hs in Hok. simpl in Hok.
      assert (Hlk' : lck cfg = true → match lock s' with None => True | Some (t', _) => t' = t end).
      { intros El. specialize (Hlk El). destruct (lock s') as [[t' d]|] eqn:Hl'; [|done].
        destruct (decide (t' = t)) as [|Hn]; [done|]. exfalso.
        destruct (owner_busy _ _ _ Hok El Hl') as (Hd&Hu&_).
        rewrite (other_stack _ _ _ _ _ Hs Hn) in Hu.
        pose proof HI as [_ _ HS]. pose proof (i_lock _ _ _ _ HS El) as L.
        destruct (lock s) as [[t1 d1]|].
        - subst t1. destruct L as (_&_&L). rewrite L in Hu by done. lia.
        - rewrite L in Hu. lia. }
      destruct (IH (work s')) with s' as (cs&s2&Hcs&Hrun&Hst2&Hoth); [by eapply work_dec|done|done|done|].
      exists (c :: cs), s2. split_and!; [by constructor|..].
      + cbn [map Core.run]. by rewrite Hs.
      + done.
      + intros t' Hn. rewrite Hoth by done. by eapply other_stack.
  Qed.

  Lemma quiescent_unlocked s : Inv s → lck cfg = true → quiescent s → lock s = None.
  Proof.
    intros HI El Hq. destruct (lock s) as [[t d]|] eqn:Hl; [|done].
    destruct (owner_busy _ _ _ HI El Hl) as (_&_&Hb). by destruct (Hb (Hq t)).
  Qed.

  (** C21: only the owner of the lock changes or reads the container, writes
      a value or a deleter count *)
  Definition shared_part (n : node) : R * Z := (n_rep n, n_del n).

  Lemma crit_owner s t i rest : Inv s → lck cfg = true → stack s t = i :: rest → 0 < ulk i →
    ∃ d, lock s = Some (t, d).
  Proof.
    intros [HH HC HS] El Hst Hu. pose proof (i_lock _ _ _ _ HS El) as L.
    destruct (lock s) as [[t' d]|].
    - destruct L as (_&_&L). destruct (decide (t = t')) as [->|Hne]; [by eauto|].
      specialize (L t Hne). rewrite Hst, lsum_cons in L. lia.
    - specialize (L t). rewrite Hst, lsum_cons in L. lia.
  Qed.

  Lemma put_same s h n n' a : heap s !! h = Some n → shared_part n' = shared_part n → n_linked n' = n_linked n →
    shared_part <$> entry (put h n' s) a = shared_part <$> entry s a.
  Proof.
    intros Hh E1 E2. rewrite entry_put. destruct (decide (a = h)) as [->|]; [|done].
    unfold entry. rewrite Hh, E2. destruct (n_linked n); [|done]. simpl. by rewrite E1.
  Qed.

  Lemma copied_same s s0 s' hs a : copied P FS cfg s s0 hs → heap s' = heap s0 →
    shared_part <$> entry s' a = shared_part <$> entry s a.
  Proof.
    intros [C1 _ _ _ _ _ _ _] Eh. unfold entry. rewrite Eh, C1. destruct (heap s !! a) as [n|]; simpl; [|done].
    destruct (bumped_facts cfg (occ a hs) n) as (E1&->&_&E2). destruct (n_linked n); [|done].
    simpl. unfold shared_part. by rewrite E1, E2.
  Qed.

  Lemma lock_discipline s l s' : Inv s → allowed (label_tid l) → lck cfg = true → step s l = Next s' →
    (cont s' ≠ cont s ∨ ∃ a, shared_part <$> entry s' a ≠ shared_part <$> entry s a) →
    ∃ d, lock s = Some (label_tid l, d).
  Proof.
    intros HI Hal El Hstep Hch.
    assert (Hq : ∀ s1, heap s1 = heap s → ∀ a, shared_part <$> entry s1 a = shared_part <$> entry s a).
    { intros s1 E a. unfold entry. by rewrite E. }
    destruct l as [t o|t c]; simpl in *.
    - exfalso. destruct (stack s t) eqn:Hst; [|done].
      assert (cont s' = cont s ∧ ∀ a, shared_part <$> entry s' a = shared_part <$> entry s a) as [Hc He];
        [|destruct Hch as [|[a Ha]]; [done|by apply Ha]].
      clear Hch. destruct o as [x p ys|x y|x y|x y|x|x|x y path]; simpl in Hstep.
      + destruct (vars s !! x) eqn:Hx; [done|]. destruct (mapM (live s) ys) as [ks|] eqn:Hks; [|done].
        apply mapM_Some in Hks.
        destruct (copy_handles_spec P FS cfg s ks) as (s1&Hs1&Hcp).
        { intros a Ha. apply elem_of_list_lookup in Ha as [j Hj].
          destruct (Forall2_lookup_r _ _ _ _ _ Hks Hj) as (y&_&Hy).
          destruct (live_entry _ _ _ _ _ _ _ _ _ _ HI Hy) as (n&Hn&_). eauto. }
        rewrite Hs1 in Hstep. pose proof (cp_cont _ _ _ _ _ _ Hcp) as Ec.
        destruct (p_make P p ks) as [r|] eqn:Hr; simplify_eq; (split; [done|]);
          intros a; by eapply copied_same.
      + destruct (vars s !! x) eqn:Hx; [done|]. destruct (live s y) as [h|] eqn:Hy; [|done].
        destruct (copy_handles_spec P FS cfg s [h]) as (s1&Hs1&Hcp).
        { intros a ->%elem_of_list_singleton. destruct (live_entry _ _ _ _ _ _ _ _ _ _ HI Hy) as (n&Hn&_). eauto. }
        simpl in Hs1. destruct (copy_handle FS cfg s h) as [s1'|]; simplify_eq.
        split; [by apply (cp_cont _ _ _ _ _ _ Hcp)|]. intros a; by eapply copied_same.
      + destruct (live s x) as [hx|] eqn:Hx; [|done]. destruct (live s y) as [hy|] eqn:Hy; [|done].
        destruct (copy_handles_spec P FS cfg s [hy]) as (s1&Hs1&Hcp).
        { intros a ->%elem_of_list_singleton. destruct (live_entry _ _ _ _ _ _ _ _ _ _ HI Hy) as (n&Hn&_). eauto. }
        simpl in Hs1. destruct (copy_handle FS cfg s hy) as [s1'|]; simplify_eq.
        split; [by apply (cp_cont _ _ _ _ _ _ Hcp)|]. intros a; by eapply copied_same.
      + destruct (live s x); [|done]. destruct (live s y); [|done]. simplify_eq. split; [done|]. by apply Hq.
      + destruct (live s x); [|done]. simplify_eq. split; [done|]. by apply Hq.
      + destruct (live s x); [|done]. repeat case_match; simplify_eq. split; [done|]. by apply Hq.
      + destruct (vars s !! x) eqn:Hx; [done|]. destruct (live s y) as [h0|] eqn:Hy; [|done].
        destruct (inner_live P FS cfg eqv good HF t0 s y h0 path HI Hy) as [Hin|(h&n&Hin&_&Hn&_)]; rewrite Hin in Hstep; [done|].
        destruct (copy_handles_spec P FS cfg s [h]) as (s1&Hs1&Hcp).
        { intros a ->%elem_of_list_singleton. eauto. }
        simpl in Hs1. rewrite Hn in Hstep. destruct (copy_handle FS cfg s h) as [s1'|]; simplify_eq.
        split; [by apply (cp_cont _ _ _ _ _ _ Hcp)|]. intros a; by eapply copied_same.
    - destruct (stack s t) as [|i rest] eqn:Hst; [done|].
      destruct (decide (0 < ulk i)) as [Hu|Hu]; [by eapply crit_owner|]. exfalso.
      assert (cont s' = cont s ∧ ∀ a, shared_part <$> entry s' a = shared_part <$> entry s a) as [Hc He];
        [|destruct Hch as [|[a Ha]]; [done|by apply Ha]].
      clear Hch. destruct i; simpl in Hu; try lia; simpl in Hstep.
      + unfold acquire in Hstep. repeat case_match; simplify_eq; (split; [done|by apply Hq]).
      + destruct (trk cfg); [|simplify_eq; split; [done|by apply Hq]].
        destruct (entry s h) as [n|] eqn:Hn; [|done]. pose proof Hn as [Hh Hl]%entry_heap.
        case_decide; simplify_eq; (split; [done|]); intros a; by apply (put_same s h n (with_ref n (n_ref n - 1))).
      + unfold acquire in Hstep. repeat case_match; simplify_eq; (split; [done|by apply Hq]).
      + destruct (heap s !! h) as [n|] eqn:Hh; [|done]. destruct (n_linked n) eqn:Hl; simplify_eq.
        split; [done|]. intros a. unfold entry. simpl. destruct (decide (a = h)) as [->|Hne].
        * by rewrite lookup_delete, Hh, Hl.
        * by rewrite lookup_delete_ne.
      + simplify_eq. split; [done|by apply Hq].
      + simplify_eq. split; [done|by apply Hq].
  Qed.
End Live.
