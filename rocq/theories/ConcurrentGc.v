(** The garbage collector of [Concurrent.v]: what it erases, and that it gets
    everything; nobody waits for ever. *)
From Verif Require Export ConcurrentProofs.

Section Gc.
  Context {K A R V : Type}.
  Context (P : Core.policy K A R V) (eqv : K → K → bool) (good : R → Prop).
  Context (Heq : equivalence eqv) (HP : policy_ok eqv good P).
  Notation state := (state (K:=K) (A:=A) (R:=R)).
  Notation instr := (instr (K:=K) (A:=A) (R:=R)).
  Notation label := (label (A:=A)).
  Notation node := (node (R:=R)).
  Notation Inv := (Inv P eqv good).
  Notation cnt := (cnt P).
  Notation step := (step P eqv).
  Notation run := (run P eqv).
  Notation exec := (exec P eqv).
  Notation passes := (passes P eqv).
  Notation referenced := (referenced P).
  Notation step_next := (step_next P eqv good Heq HP).
  Notation step_ev := (step_ev P eqv good HP).
  Implicit Types (s : state) (n m : node) (a b h : addr) (t : tid) (i : instr) (l : label) (rest : list instr).

  Lemma unreferenced_cnt s a : ¬ referenced s a ↔ cnt s a = 0.
  Proof. rewrite referenced_cnt. lia. Qed.

  (** ** C27 *)
  Lemma selected_kept s a n : Inv s → selected s a → ents s !! a = Some n → n_own n = Some gc_tid → 0 < cnt s a.
  Proof.
    intros HI (t&x&ks&k&H) Hn Ho.
    assert (Habs : ∀ i, i ∈ stack s t → 0 < acc a i → gc_only i).
    { intros i Hi Hp. destruct (accessed P eqv good s t i a HI Hi Hp) as (m&Hm&Hom). simplify_eq.
      destruct (i_gc _ _ _ _ HI _ i Hi) as [_ [|H']]; [congruence|done|]. destruct i; simpl in *; try done; lia. }
    destruct H as [[p H]|[H|[H|H]]].
    - destruct (Habs _ H); simpl; rewrite at_eq; lia.
    - destruct (Habs _ H); simpl; rewrite at_eq; lia.
    - destruct (Habs _ H); simpl; rewrite at_eq; lia.
    - eapply cnt_own; [exact H|]. simpl. rewrite at_eq. lia.
  Qed.
  Lemma erase_safe s l s' a n : Inv s → step s l = Next s' → ents s !! a = Some n → ents s' !! a = None →
    ¬ referenced s a ∧ ¬ selected s a ∧ n_cnt n = 0%Z.
  Proof.
    intros HI Hs Hn Hn'. destruct (step_ev s l s' HI Hs) as (_&_&Hev).
    destruct (Hev a n Hn) as [(n'&?&_)|(Hz&_&_&Ho)]; [congruence|]. rewrite unreferenced_cnt.
    destruct (i_cnt _ _ _ _ HI a n Hn) as [Hc _]. split_and!; [done| |lia].
    intros Hsel. pose proof (selected_kept s a n HI Hsel Hn Ho). lia.
  Qed.
  (** only the garbage collector erases *)
  Lemma erase_gc s l s' a n : Inv s → step s l = Next s' → ents s !! a = Some n → ents s' !! a = None → ∃ thr, l = LRun gc_tid thr.
  Proof.
    intros HI Hs Hn Hn'. destruct l as [t op|t thr| |h|].
    - simpl in Hs. repeat case_match; simplify_eq.
      destruct (start_ev P eqv s t op s' ltac:(done)) as (_&_&Hev). destruct (Hev a n Hn) as [(n'&?&_)|(_&_&Hi&_)]; [congruence|].
      exfalso. destruct op; simpl in *; unfold add_ref in *; repeat case_match; simplify_eq; simpl in Hn';
        try (apply lookup_insert_None in Hn' as [? ?]); congruence.
    - simpl in Hs. destruct (stack s t) as [|i rest] eqn:E; [done|].
      destruct (exec_ev P eqv good HP s t i rest thr s' HI E Hs) as (_&_&Hev). destruct (Hev a n Hn) as [(n'&?&_)|(_&_&Hi&Ho)]; [congruence|].
      exists thr. f_equal. destruct i as [x p [|y ys] got|x p r|x h p ks k|x h ks k|x h ks k|h|x h k|x|x h|x y hx hy|x y hx hy|x y hx hy|h [|j]|h|h|h];
      cbn [Concurrent.exec] in Hs; unfold add_ref, release in Hs; repeat case_match; simplify_eq; simpl in Hn'; try congruence;
        try (apply lookup_insert_None in Hn' as [? ?]; congruence).
      assert (Htop : IErase h ∈ stack s t) by (rewrite E; left). by destruct (i_gc _ _ _ _ HI t _ Htop) as [Hg _]; apply Hg.
    - simpl in Hs. repeat case_match; simplify_eq. simpl in Hn'. congruence.
    - simpl in Hs. repeat case_match; simplify_eq. simpl in Hn'. apply lookup_insert_None in Hn' as [? ?]. congruence.
    - simpl in Hs. repeat case_match; simplify_eq. simpl in Hn'. congruence.
  Qed.

  (** ** one pass *)
  Lemma exec_todo s t i rest thr s' : exec s t i rest thr = Next s' → todo s' = todo s.
  Proof.
    intros He. destruct i as [x p [|y ys] got|x p r|x h p ks k|x h ks k|x h ks k|h|x h k|x|x h|x y hx hy|x y hx hy|x y hx hy|h [|j]|h|h|h];
      cbn [Concurrent.exec] in He; unfold add_ref, release in He; repeat case_match; simplify_eq; done.
  Qed.
  Lemma start_todo s t op s' : start s t op = Next s' → todo s' = todo s.
  Proof. intros He. destruct op; simpl in He; unfold add_ref in He; repeat case_match; simplify_eq; done. Qed.

  (** the current pass still has to deal with [a], or has *)
  Definition doomed s a : Prop :=
    (a < clock s ∧ ents s !! a = None) ∨ (∃ X, todo s = Some X ∧ a ∈ X) ∨ ITest a ∈ stack s gc_tid ∨ IErase a ∈ stack s gc_tid.

  Lemma doomed_step s l s' a : Inv s → step s l = Next s' → l ≠ LEnd → cnt s a = 0 → doomed s a → doomed s' a.
  Proof.
    intros HI Hs Hl Hc Hd. destruct (step_ev s l s' HI Hs) as (Hck&Hgone&_).
    destruct Hd as [[Hlt Hn]|Hd]; [left; split; [lia|by apply Hgone]|].
    destruct l as [t op|t thr| |h|]; simpl in Hs; [| | | |done].
    - case_decide as Ht; [done|]. destruct (stack s t) eqn:E; [|done]. right. rewrite (start_todo _ _ _ _ Hs).
      by rewrite (start_stack s t op s' E Hs gc_tid) by done.
    - destruct (stack s t) as [|i rest] eqn:E; [done|]. destruct (decide (t = gc_tid)) as [->|Ht].
      2: { right. rewrite (exec_todo _ _ _ _ _ _ Hs). destruct (exec_goal P eqv s t i rest thr s' Hs) as [_ Hoth]. by rewrite Hoth. }
      assert (Htop : i ∈ stack s gc_tid) by (rewrite E; left).
      assert (Hst : ∀ s1 new, stack (set_stack gc_tid new s1) gc_tid = new) by (intros; by rewrite stack_set, decide_True).
      assert (Hst' : ∀ s1 new e, stack (add_log e (set_stack gc_tid new s1)) gc_tid = new) by (intros; unfold stack; simpl; by rewrite lookup_insert).
      destruct Hd as [Hd|Hd]; [right; left; by rewrite (exec_todo _ _ _ _ _ _ Hs)|].
      assert (Hrest : ITest a ∈ rest ∨ IErase a ∈ rest → ∀ new s1, stack s1 gc_tid = new ++ rest → doomed s1 a).
      { intros [Hr|Hr] new s1 Hs1; right; right; [left|right]; rewrite Hs1; apply elem_of_app; by right. }
      rewrite E, !elem_of_cons in Hd.
      assert (Hd' : i = ITest a ∨ i = IErase a ∨ ITest a ∈ rest ∨ IErase a ∈ rest) by naive_solver. clear Hd.
      destruct Hd' as [->|[->|Hd]].
      + simpl in Hs. destruct (ents s !! a) as [n|] eqn:Hn; [|done]. destruct (i_cnt _ _ _ _ HI a n Hn) as [Hc' _].
        rewrite decide_True in Hs by lia. simplify_eq. right; right; right. rewrite Hst. left.
      + simpl in Hs. destruct (ents s !! a) as [n|] eqn:Hn; [|done]. simplify_eq. left. simpl. split; [by eapply (i_low _ _ _ _ HI)|]. apply lookup_delete.
      + destruct (i_gc _ _ _ _ HI _ _ Htop) as [_ Hg]. specialize (Hg eq_refl).
        destruct i; try (destruct Hg as [[]|[]]); simpl in Hs; unfold release in Hs; repeat case_match; simplify_eq.
        * apply (Hrest Hd []). apply Hst.
        * apply (Hrest Hd [IErase h]). apply Hst.
        * apply (Hrest Hd [ISkip h]). apply Hst.
        * eapply (Hrest Hd). apply Hst'.
        * apply (Hrest Hd []). apply Hst.
    - destruct (todo s) eqn:Et; simplify_eq. right. destruct Hd as [(X&?&?)|Hd]; [done|]. by right.
    - destruct (todo s) as [X|] eqn:Et; [|done]. destruct (stack s gc_tid) eqn:Eg; [|done].
      destruct (ents s !! h) as [[r c [?|]]|]; simplify_eq.
      destruct Hd as [(X'&?&Hin)|[?%elem_of_nil|?%elem_of_nil]]; [|done|done]. simplify_eq. destruct (decide (a = h)) as [->|Hne].
      + right; right; left. rewrite stack_set, decide_True by done. left.
      + right; left. simpl. eexists. split; [done|]. apply elem_of_difference. split; [done|]. by rewrite elem_of_singleton.
  Qed.
  Lemma doomed_end s s' a : doomed s a → step s LEnd = Next s' → ents s' !! a = None.
  Proof.
    intros Hd Hs. simpl in Hs. destruct (todo s) as [X|] eqn:Et; [|done]. destruct (stack s gc_tid) eqn:Eg; [|done].
    case_decide; simplify_eq. destruct Hd as [[_ ?]|[(X'&?&Hin)|[H|H]]]; [done| | |].
    - simplify_eq. by apply elem_of_empty in Hin.
    - rewrite Eg in H. by apply elem_of_nil in H.
    - rewrite Eg in H. by apply elem_of_nil in H.
  Qed.

  Lemma doomed_run ls s s' a : Inv s → run s ls = Next s' → passes s ls = 0 →
    (∀ ls1 ls2 s1, ls = ls1 ++ ls2 → run s ls1 = Next s1 → ¬ referenced s1 a) → doomed s a → doomed s' a.
  Proof.
    revert s. induction ls as [|l ls IH]; intros s HI Hr Hp Href Hd; simpl in *; [by simplify_eq|].
    destruct (step s l) as [s1| |] eqn:E; [| |done].
    - eapply (IH s1); [by eapply step_next|done|destruct l; simpl in *; (lia || done)| |].
      + intros ls1 ls2 s2 -> Hr2. apply (Href (l :: ls1) ls2); [done|]. simpl. by rewrite E.
      + eapply doomed_step; [done|exact E| | |done].
        * intros ->. simpl in Hp. lia.
        * apply unreferenced_cnt. by apply (Href [] (l :: ls)).
    - eapply (IH s); [done|done|done| |done]. intros ls1 ls2 s2 -> Hr2. apply (Href (l :: ls1) ls2); [done|]. simpl. by rewrite E.
  Qed.
  Lemma pass_erases s0 s1 ls s2 s3 a : Inv s0 → step s0 LBegin = Next s1 → run s1 ls = Next s2 → passes s1 ls = 0 →
    step s2 LEnd = Next s3 → is_Some (ents s0 !! a) →
    (∀ ls1 ls2 s', ls = ls1 ++ ls2 → run s1 ls1 = Next s' → ¬ referenced s' a) → ents s3 !! a = None.
  Proof.
    intros HI Hb Hr Hp He Ha Href. eapply doomed_end; [|exact He]. eapply doomed_run; [by eapply step_next|done|done|done|].
    simpl in Hb. destruct (todo s0); simplify_eq. right; left. simpl. eexists. split; [done|]. by apply elem_of_dom.
  Qed.

  (** ** passes with nobody else around *)
  Definition idle s : Prop := ∀ t, t ≠ gc_tid → stack s t = [].

  Lemma gc_step s l s' : Inv s → gc_label l → step s l = Next s' →
    vars s' = vars s ∧ (∀ t, t ≠ gc_tid → stack s' t = stack s t) ∧
    (∀ a n', ents s' !! a = Some n' → ∃ n, ents s !! a = Some n ∧ n_rep n' = n_rep n) ∧
    ∀ i, i ∈ stack s' gc_tid → i ∈ stack s gc_tid ∨ gc_only i ∨ ∃ h b n, i = IRelease h ∧ ents s !! b = Some n ∧ h ∈ p_kids P (n_rep n).
  Proof.
    intros HI Hl Hs. destruct l as [t op|t thr| |h|]; simpl in Hl; [done| | | |].
    - subst t. simpl in Hs. destruct (stack s gc_tid) as [|i rest] eqn:E; [done|].
      assert (Htop : i ∈ stack s gc_tid) by (rewrite E; left).
      destruct (exec_goal P eqv s gc_tid i rest thr s' Hs) as [_ Hoth].
      destruct (i_gc _ _ _ _ HI _ _ Htop) as [_ Hg]. specialize (Hg eq_refl).
      assert (Hst : ∀ s1 new, stack (set_stack gc_tid new s1) gc_tid = new) by (intros; by rewrite stack_set, decide_True).
      assert (Hst' : ∀ s1 new e, stack (add_log e (set_stack gc_tid new s1)) gc_tid = new) by (intros; unfold stack; simpl; by rewrite lookup_insert).
      assert (Hput : ∀ h n n', ents s !! h = Some n → n_rep n' = n_rep n → ∀ a m', <[h:=n']> (ents s) !! a = Some m' → ∃ m, ents s !! a = Some m ∧ n_rep m' = n_rep m).
      { intros h n n' Hn Hr a m' [[-> ->]|[_ Hm]]%lookup_insert_Some; eauto. }
      destruct i; try (destruct Hg as [[]|[]]); simpl in Hs; unfold release in Hs; repeat case_match; simplify_eq; (split_and!; [done|done| |]).
      + by eapply Hput.
      + rewrite Hst. intros i Hi. left. by right.
      + simpl. eauto.
      + rewrite Hst. intros i [->|Hi]%elem_of_cons; [by right; left|]. left. by right.
      + simpl. eauto.
      + rewrite Hst. intros i [->|Hi]%elem_of_cons; [by right; left|]. left. by right.
      + simpl. intros a m' [_ Hm]%lookup_delete_Some. eauto.
      + rewrite Hst'. intros i [(b&->&Hb)%elem_of_list_fmap|Hi]%elem_of_app; [right; right; eauto 10|]. left. by right.
      + by eapply Hput.
      + rewrite Hst. intros i Hi. left. by right.
    - simpl in Hs. repeat case_match; simplify_eq. split_and!; simpl; eauto.
    - simpl in Hs. destruct (todo s) as [X|] eqn:Et; [|done]. destruct (stack s gc_tid) eqn:Eg; [|done].
      destruct (ents s !! h) as [[r c [?|]]|] eqn:Eh; simplify_eq. split_and!; [done| | |].
      + intros t Ht. rewrite stack_set, decide_False by done. done.
      + simpl. intros a m' [[-> <-]|[_ Hm]]%lookup_insert_Some; eauto.
      + intros i. rewrite stack_set, decide_True by done. intros ->%elem_of_list_singleton. by right; left.
    - simpl in Hs. destruct (todo s) as [X|]; [|done]. destruct (stack s gc_tid) eqn:Eg; [|done]. case_decide; simplify_eq.
      split_and!; simpl; eauto. intros i Hi. left. by rewrite <- Eg.
  Qed.

  Lemma gc_step_referenced s l s' a : Inv s → gc_label l → step s l = Next s' → referenced s' a → referenced s a.
  Proof.
    intros HI Hl Hs. destruct (gc_step s l s' HI Hl Hs) as (Ev&Est&Ee&Ei). intros [[x Hx]|[(b&n&Hb&Ha)|(t&i&Hi&Ho)]].
    - left. exists x. by rewrite <- Ev.
    - destruct (Ee b n Hb) as (m&Hm&Er). right; left. exists b, m. by rewrite <- Er.
    - destruct (decide (t = gc_tid)) as [->|Ht]; [|right; right; exists t, i; by rewrite <- Est].
      destruct (Ei i Hi) as [Hi'|[Hi'|(h&b&n&->&Hb&Hh)]]; [right; right; eauto| |].
      + by destruct i.
      + simpl in Ho. subst a. right; left; eauto.
  Qed.

  Lemma gc_size s l s' : Inv s → gc_label l → step s l = Next s' → size (ents s') ≤ size (ents s) ∧
    ∀ a, is_Some (ents s !! a) → ents s' !! a = None → size (ents s') < size (ents s).
  Proof.
    intros HI Hl Hs. destruct (gc_step s l s' HI Hl Hs) as (_&_&Ee&_). rewrite <- !size_dom.
    assert (Hsub : dom (ents s') ⊆ dom (ents s)).
    { intros a [n' Hn']%elem_of_dom. destruct (Ee a n' Hn') as (n&Hn&_). apply elem_of_dom. eauto. }
    split; [by apply subseteq_size|]. intros a Ha Hn. apply subset_size. split; [done|]. intros H.
    apply elem_of_dom, H, elem_of_dom in Ha as [? ?]. congruence.
  Qed.

  Lemma max_entry (E : gmap addr node) : E ≠ ∅ → ∃ a, is_Some (E !! a) ∧ ∀ b, is_Some (E !! b) → b ≤ a.
  Proof.
    induction E as [|k x E Hk IH] using map_ind; [done|]. intros _. destruct (decide (E = ∅)) as [->|Hne].
    - exists k. rewrite lookup_insert. split; [eauto|]. intros b [y Hy]. apply lookup_insert_Some in Hy as [[-> _]|[_ Hy]]; [done|].
      by rewrite lookup_empty in Hy.
    - destruct (IH Hne) as (a&Ha&Hmax). destruct (decide (k ≤ a)).
      + exists a. split; [destruct (decide (k = a)) as [->|]; [rewrite lookup_insert|rewrite lookup_insert_ne]; eauto|].
        intros b [y Hy]. apply lookup_insert_Some in Hy as [[<- _]|[_ Hy]]; [done|]. apply Hmax. eauto.
      + exists k. rewrite lookup_insert. split; [eauto|]. intros b [y Hy]. apply lookup_insert_Some in Hy as [[<- _]|[_ Hy]]; [done|].
        assert (b ≤ a) by (apply Hmax; eauto). lia.
  Qed.

  (** at the end of the current pass there are fewer than [n] *)
  Definition bound s (n : nat) : Prop :=
    size (ents s) ≤ n ∧
    (todo s = None ∨ size (ents s) ≤ pred n ∨ ∃ a, is_Some (ents s !! a) ∧ doomed s a ∧ ¬ referenced s a).

  Lemma bound_step s l s' (n : nat) : Inv s → idle s → vars s = ∅ → gc_label l → step s l = Next s' → bound s n →
    bound s' (match l with LEnd => pred n | _ => n end).
  Proof.
    intros HI Hid Hv Hl Hs [Hn Hb]. destruct (gc_size s l s' HI Hl Hs) as [Hsz Hlt].
    assert (l = LEnd ∨ l ≠ LEnd) as [->|Hne] by (destruct l; (by left) || by right).
    - assert (size (ents s) ≤ pred n) as Hn'.
      { destruct Hb as [Hb|[Hb|(a&Ha&Hd&_)]]; [simpl in Hs; by rewrite Hb in Hs|done|]. pose proof (doomed_end s s' a Hd Hs) as Hn'.
        specialize (Hlt a Ha Hn'). simpl in Hs. repeat case_match; simplify_eq. simpl in Hlt. lia. }
      split; [lia|]. left. simpl in Hs. repeat case_match; simplify_eq. done.
    - assert (bound s' n); [|by destruct l]. split; [lia|]. destruct (todo s') eqn:Et'; [right|by left].
      destruct Hb as [Hb|[Hb|(a&Ha&Hd&Href)]].
      + (* the pass begins *)
        assert (l = LBegin) as ->.
        { destruct l as [t op|t thr| |h|]; simpl in Hl, Hs; [done| |done|by rewrite Hb in Hs|done].
          destruct (stack s t) eqn:E; [done|]. apply exec_todo in Hs. congruence. }
        simpl in Hs. rewrite Hb in Hs. simplify_eq. simpl in *. pose proof (i_todo _ _ _ _ HI) as Htd. rewrite Hb in Htd.
        destruct (decide (ents s = ∅)) as [E|E]; [left; rewrite E, map_size_empty; lia|right].
        destruct (max_entry _ E) as (a&Ha&Hmax). exists a. split_and!; [done| |].
        * right; left. exists (dom (ents s)). split; [done|]. by apply elem_of_dom.
        * intros [[x Hx]|[(b&m&Hm&Hin)|(t&i&Hi&_)]].
          -- simpl in Hx. rewrite Hv in Hx. by rewrite lookup_empty in Hx.
          -- simpl in Hm. pose proof (i_kids _ _ _ _ HI b m a Hm Hin). assert (b ≤ a) by (apply Hmax; eauto). lia.
          -- change (stack _ t) with (stack s t) in Hi. destruct (decide (t = gc_tid)) as [->|Ht]; [rewrite Htd in Hi|rewrite (Hid t Ht) in Hi];
               by apply elem_of_nil in Hi.
      + left. lia.
      + destruct (ents s' !! a) as [m|] eqn:Em.
        * right. exists a. split_and!; [eauto| |].
          -- eapply doomed_step; [done|exact Hs|done|by apply unreferenced_cnt|done].
          -- intros H. apply Href. by eapply gc_step_referenced.
        * left. specialize (Hlt a Ha Em). lia.
  Qed.

  Lemma gc_idle s l s' : Inv s → gc_label l → step s l = Next s' → idle s → idle s'.
  Proof. intros HI Hl Hs Hid t Ht. destruct (gc_step s l s' HI Hl Hs) as (_&Es&_). rewrite Es by done. by apply Hid. Qed.

  Lemma bound_run ls s s' (n : nat) : Inv s → idle s → vars s = ∅ → Forall gc_label ls → run s ls = Next s' → bound s n →
    size (ents s') ≤ n - passes s ls.
  Proof.
    revert s n. induction ls as [|l ls IH]; intros s n HI Hid Hv Hl Hr Hb; simpl in *.
    { simplify_eq. destruct Hb. lia. }
    inversion Hl; subst. destruct (step s l) as [s1| |] eqn:E; [|by apply IH|done].
    pose proof (bound_step s l s1 n HI Hid Hv ltac:(done) E Hb) as Hb1.
    assert (size (ents s') ≤ (match l with LEnd => pred n | _ => n end) - passes s1 ls) as H.
    { apply IH; try done; [by eapply step_next|by eapply gc_idle|]. by destruct (gc_step s l s1 HI ltac:(done) E) as (->&_). }
    destruct l; simpl in *; lia.
  Qed.
  Lemma passes_empty s ls s' : Inv s → idle s → vars s = ∅ → Forall gc_label ls → run s ls = Next s' →
    size (ents s) < passes s ls ∨ (todo s = None ∧ size (ents s) ≤ passes s ls) → ents s' = ∅.
  Proof.
    intros HI Hid Hv Hl Hr Hp. apply map_size_empty_iff. destruct Hp as [Hp|[Ht Hp]].
    - assert (size (ents s') ≤ S (size (ents s)) - passes s ls); [|lia]. eapply bound_run; try done. split; [lia|]. right; left. simpl. lia.
    - assert (size (ents s') ≤ size (ents s) - passes s ls); [|lia]. eapply bound_run; try done. split; [lia|]. by left.
  Qed.

  (** ** a pass can be completed *)
  Definition one_gc s s' : Prop := ∃ ls, Forall gc_label ls ∧ run s ls = Next s' ∧ passes s ls = 0 ∧ ∀ ls', passes s (ls ++ ls') = passes s' ls'.
  Lemma one_gc_refl s : one_gc s s.
  Proof. by exists []. Qed.
  Lemma one_gc_step s l s1 s' : gc_label l → l ≠ LEnd → step s l = Next s1 → one_gc s1 s' → one_gc s s'.
  Proof.
    intros Hl Hne Hs (ls&H1&H2&H3&H4). exists (l :: ls). split_and!; simpl; rewrite ?Hs; [by constructor|done|by destruct l|].
    intros ls'. rewrite H4. by destruct l.
  Qed.
  Lemma one_gc_trans s s1 s' : one_gc s s1 → one_gc s1 s' → one_gc s s'.
  Proof.
    intros (ls&H1&H2&H3&H4) (ls'&G1&G2&G3&G4). exists (ls ++ ls'). split_and!; [by apply Forall_app| | |].
    - by rewrite run_app, H2.
    - by rewrite H4.
    - intros ls''. by rewrite <- app_assoc, H4.
  Qed.

  Lemma gc_exec s i rest : Inv s → stack s gc_tid = i :: rest → ∃ s1, step s (LRun gc_tid false) = Next s1 ∧ todo s1 = todo s ∧
    match i with
    | ITest h => stack s1 gc_tid = IErase h :: rest ∨ stack s1 gc_tid = ISkip h :: rest
    | IErase h => ∃ ks, stack s1 gc_tid = map IRelease ks ++ rest
    | _ => stack s1 gc_tid = rest
    end.
  Proof.
    intros HI Hst. pose proof (step_inv P eqv good Heq HP s (LRun gc_tid false) HI) as Hok.
    assert (Htop : i ∈ stack s gc_tid) by (rewrite Hst; left).
    destruct (i_gc _ _ _ _ HI _ _ Htop) as [_ Hg]. specialize (Hg eq_refl).
    assert (Hs : ∀ s1 new, stack (set_stack gc_tid new s1) gc_tid = new) by (intros; by rewrite stack_set, decide_True).
    assert (Hs' : ∀ s1 new e, stack (add_log e (set_stack gc_tid new s1)) gc_tid = new) by (intros; unfold stack; simpl; by rewrite lookup_insert).
    simpl in *. rewrite Hst in *. destruct i; try (destruct Hg as [[]|[]]); simpl in *; unfold release in *; repeat case_match; try done; simplify_eq;
      (eexists; split; [done|]; split; [done|]); rewrite ?Hs, ?Hs'; eauto.
  Qed.
  Lemma gc_releases ks : ∀ s rest, Inv s → stack s gc_tid = map IRelease ks ++ rest →
    ∃ s1, one_gc s s1 ∧ Inv s1 ∧ stack s1 gc_tid = rest ∧ todo s1 = todo s.
  Proof.
    induction ks as [|h ks IH]; intros s rest HI Hst; simpl in *; [exists s; split; [apply one_gc_refl|done]|].
    destruct (gc_exec s _ _ HI Hst) as (s1&Hs&Ht&Hst1). pose proof (step_next s _ s1 HI Hs) as HI1.
    destruct (IH s1 rest HI1 Hst1) as (s2&H1&H2&H3&H4). exists s2. split_and!; [|done|done|congruence].
    by eapply (one_gc_step s (LRun gc_tid false)).
  Qed.
  Lemma gc_erase s h rest : Inv s → stack s gc_tid = IErase h :: rest →
    ∃ s1, one_gc s s1 ∧ Inv s1 ∧ stack s1 gc_tid = rest ∧ todo s1 = todo s.
  Proof.
    intros HI Hst. destruct (gc_exec s _ _ HI Hst) as (s1&Hs&Ht&ks&Hst1). pose proof (step_next s _ s1 HI Hs) as HI1.
    destruct (gc_releases ks s1 rest HI1 Hst1) as (s2&H1&H2&H3&H4). exists s2. split_and!; [|done|done|congruence].
    by eapply (one_gc_step s (LRun gc_tid false)).
  Qed.
  Lemma gc_finish k : ∀ s, Inv s → stack s gc_tid = k → ∃ s1, one_gc s s1 ∧ Inv s1 ∧ stack s1 gc_tid = [] ∧ todo s1 = todo s.
  Proof.
    induction k as [|i rest IH]; intros s HI Hst; [exists s; split; [apply one_gc_refl|done]|].
    assert (∃ s1, one_gc s s1 ∧ Inv s1 ∧ stack s1 gc_tid = rest ∧ todo s1 = todo s) as (s1&H1&H2&H3&H4).
    { destruct (gc_exec s _ _ HI Hst) as (s1&Hs&Ht&Hst1). pose proof (step_next s _ s1 HI Hs) as HI1.
      assert (Hone : one_gc s s1) by (eapply (one_gc_step s (LRun gc_tid false)); [done|done|exact Hs|apply one_gc_refl]).
      destruct i; try (by exists s1).
      - destruct Hst1 as [Hst1|Hst1].
        + destruct (gc_erase s1 h rest HI1 Hst1) as (s2&?&?&?&?). exists s2. split_and!; [by eapply one_gc_trans|done|done|congruence].
        + destruct (gc_exec s1 _ _ HI1 Hst1) as (s2&Hs2&Ht2&Hst2). exists s2. split_and!; [|by eapply step_next|done|congruence].
          eapply one_gc_trans; [exact Hone|]. eapply (one_gc_step s1 (LRun gc_tid false)); [done|done|exact Hs2|apply one_gc_refl].
      - destruct (gc_erase s h rest HI Hst) as (s2&?&?&?&?). by exists s2. }
    destruct (IH s1 H2 H3) as (s2&?&?&?&?). exists s2. split_and!; [by eapply one_gc_trans|done|done|congruence].
  Qed.

  Lemma one_gc_keep s s' : Inv s → one_gc s s' → idle s → idle s' ∧ vars s' = vars s.
  Proof.
    intros HI (ls&Hl&Hr&_). revert s HI Hr. induction Hl as [|l ls Hl _ IH]; intros s HI Hr Hid; simpl in Hr; [by simplify_eq|].
    destruct (step s l) as [s1| |] eqn:E; [|by apply IH|done].
    destruct (IH s1) as [H1 H2]; [by eapply step_next|done|by eapply gc_idle|]. split; [done|].
    destruct (gc_step s l s1 HI Hl E) as (Ev&_). congruence.
  Qed.

  Lemma pass_rest c : ∀ s X, Inv s → idle s → todo s = Some X → size X = c →
    ∃ s1, one_gc s s1 ∧ Inv s1 ∧ stack s1 gc_tid = [] ∧ todo s1 = Some ∅.
  Proof.
    induction c as [|c IH]; intros s X HI Hid HX Hc.
    - destruct (gc_finish _ s HI eq_refl) as (s1&?&?&?&Ht). exists s1. split_and!; try done. rewrite Ht, HX.
      f_equal. apply size_empty_inv in Hc. by apply leibniz_equiv.
    - destruct (gc_finish _ s HI eq_refl) as (s1&H1&HI1&Hst1&Ht1). destruct (one_gc_keep s s1 HI H1 Hid) as [Hid1 _]. rewrite HX in Ht1.
      destruct (set_choose X) as [h Hh]; [intros E%size_empty_iff; lia|].
      pose proof (i_todo _ _ _ _ HI1) as Htd. rewrite Ht1 in Htd. destruct Htd as [Hdom _].
      pose proof (Hdom h Hh) as [n Hn]%elem_of_dom.
      assert (Hown : n_own n = None).
      { destruct (n_own n) as [t|] eqn:Eo; [|done]. pose proof (i_acc _ _ _ _ HI1 h t) as Hac. rewrite Hn, Eo in Hac.
        unfold has in Hac. rewrite decide_True in Hac by done.
        destruct (decide (t = gc_tid)) as [->|Ht]; [rewrite Hst1 in Hac|rewrite (Hid1 t Ht) in Hac]; by rewrite lsum_nil in Hac. }
      destruct n as [r z o]. simpl in Hown. subst o.
      assert (Hs2 : step s1 (LLook h) = Next (set_stack gc_tid [ITest h] (set_todo (Some (X ∖ {[h]})) (put h (Node r z (Some gc_tid)) s1)))).
      { simpl. by rewrite Ht1, Hst1, Hn. }
      pose proof (step_next s1 _ _ HI1 Hs2) as HI2.
      edestruct (IH _ (X ∖ {[h]}) HI2) as (s3&H3&HI3&Hst3&Ht3).
      + by eapply (gc_idle s1 (LLook h)).
      + done.
      + rewrite size_difference by set_solver. rewrite size_singleton. lia.
      + exists s3. split_and!; try done. eapply one_gc_trans; [exact H1|]. by eapply (one_gc_step s1 (LLook h)).
  Qed.
  Lemma pass_exists s : Inv s → idle s → ∃ ls s', Forall gc_label ls ∧ run s ls = Next s' ∧ passes s ls = 1 ∧ Inv s' ∧ idle s' ∧ vars s' = vars s ∧
    (∀ ls', passes s (ls ++ ls') = 1 + passes s' ls').
  Proof.
    intros HI Hid.
    assert (∃ s0 X, one_gc s s0 ∧ Inv s0 ∧ todo s0 = Some X) as (s0&X&H0&HI0&HX).
    { destruct (todo s) as [X|] eqn:E; [exists s, X; split; [apply one_gc_refl|done]|].
      assert (Hb : step s LBegin = Next (set_todo (Some (dom (ents s))) s)) by (simpl; by rewrite E).
      eexists _, _. split_and!; [eapply (one_gc_step s LBegin); [done|done|exact Hb|apply one_gc_refl]|by eapply step_next|done]. }
    destruct (one_gc_keep s s0 HI H0 Hid) as [Hid0 Ev0].
    destruct (pass_rest _ s0 X HI0 Hid0 HX eq_refl) as (s1&H1&HI1&Hst1&Ht1).
    destruct (one_gc_keep s0 s1 HI0 H1 Hid0) as [Hid1 Ev1].
    destruct (one_gc_trans s s0 s1 H0 H1) as (ls&G1&G2&G3&G4).
    assert (He : step s1 LEnd = Next (set_todo None s1)) by (simpl; rewrite Ht1, Hst1; by rewrite decide_True).
    exists (ls ++ [LEnd]), (set_todo None s1). split_and!.
    - apply Forall_app. split; [done|]. by constructor.
    - rewrite run_app, G2. cbn [Concurrent.run]. by rewrite He.
    - rewrite G4. cbn [ConcurrentSpec.passes]. by rewrite He.
    - by eapply step_next.
    - done.
    - simpl. congruence.
    - intros ls'. rewrite <- app_assoc, G4. cbn [ConcurrentSpec.passes app]. by rewrite He.
  Qed.
  Lemma passes_exist c s : Inv s → idle s → ∃ ls s', Forall gc_label ls ∧ run s ls = Next s' ∧ passes s ls = c.
  Proof.
    revert s. induction c as [|c IH]; intros s HI Hid; [exists [], s; done|].
    destruct (pass_exists s HI Hid) as (ls&s1&H1&H2&H3&H4&H5&_&H6). destruct (IH s1 H4 H5) as (ls'&s2&G1&G2&G3).
    exists (ls ++ ls'), s2. split_and!; [by apply Forall_app|by rewrite run_app, H2|by rewrite H6, G3].
  Qed.
End Gc.
