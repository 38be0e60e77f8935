(** Consequences of the invariant of [ConcurrentInv.v]. *)
From Verif Require Export ConcurrentSpec ConcurrentStep.

Section Proofs.
  Context {K A R V : Type}.
  Context (P : Core.policy K A R V) (eqv : K → K → bool) (good : R → Prop).
  Context (Heq : equivalence eqv) (HP : policy_ok eqv good P).
  Notation state := (state (K:=K) (A:=A) (R:=R)).
  Notation instr := (instr (K:=K) (A:=A) (R:=R)).
  Notation label := (label (A:=A)).
  Notation node := (node (R:=R)).
  Notation obs := (obs (K:=K) (A:=A)).
  Notation Inv := (Inv P eqv good).
  Notation cnt := (cnt P).
  Notation step := (step P eqv).
  Notation run := (run P eqv).
  Notation exec := (exec P eqv).
  Notation fits := (fits P eqv).
  Notation observe := (observe P).
  Notation watch := (watch P eqv).
  Notation reachable := (reachable P eqv).
  Notation referenced := (referenced P).
  Implicit Types (s : state) (n m : node) (a b h : addr) (t : tid) (i : instr) (l : label) (rest : list instr) (o : obs).

  Lemma reach_inv s : reachable s → Inv s.
  Proof. intros [ls Hr]. pose proof (run_inv P eqv good Heq HP ls init (init_inv P eqv good)) as H. by rewrite Hr in H. Qed.
  Lemma step_next s l s' : Inv s → step s l = Next s' → Inv s'.
  Proof. intros HI Hs. pose proof (step_inv P eqv good Heq HP s l HI) as H. by rewrite Hs in H. Qed.
  Lemma run_next s ls s' : Inv s → run s ls = Next s' → Inv s'.
  Proof. intros HI Hs. pose proof (run_inv P eqv good Heq HP ls s HI) as H. by rewrite Hs in H. Qed.
  Lemma run_app s ls1 ls2 : run s (ls1 ++ ls2) = match run s ls1 with Next s' => run s' ls2 | r => r end.
  Proof.
    revert s. induction ls1 as [|l ls1 IH]; intros s; [done|]. simpl. destruct (step s l); [apply IH|apply IH|done].
  Qed.
  Lemma run_not_stuck s ls : run s ls ≠ Stuck.
  Proof. revert s. induction ls as [|l ls IH]; intros s; [done|]. simpl. destruct (step s l); [apply IH|apply IH|done]. Qed.

  (** ** references and counts *)
  Lemma holds_own a i : holds P a i ↔ 0 < own P a i.
  Proof.
    destruct i; simpl; unfold at_; rewrite ?occ_pos; repeat case_decide; try naive_solver lia.
    all: rewrite <- occ_pos; naive_solver lia.
  Qed.
  Lemma referenced_cnt s a : referenced s a ↔ 0 < cnt s a.
  Proof.
    unfold referenced. split.
    - intros [[x Hx]|[(b&n&Hb&Ha)|(t&i&Hi&Ho)]]; [by eapply cnt_var|by eapply cnt_kid|]. eapply cnt_own; [exact Hi|]. by apply holds_own.
    - intros Hc. unfold ConcurrentInv.cnt in Hc.
      assert (0 < vsum a s ∨ 0 < hsum P a s ∨ 0 < tsum (own P a) s) as [H|[H|H]] by lia.
      + left. apply msum_pos in H as (x&[h|]&Hx&Hp); simpl in Hp; [|lia]. apply at_pos in Hp as <-. by exists x.
      + right; left. apply msum_pos in H as (b&n&Hb&Hp). apply occ_pos in Hp. by exists b, n.
      + right; right. apply msum_pos in H as (t&ks&Ht&Hp). apply lsum_pos in Hp as (i&Hi&Hp). exists t, i.
        split; [unfold stack; by rewrite Ht|]. by apply holds_own.
  Qed.

  (** ** how entries change in a step *)
  Definition kept n n' : Prop :=
    n_rep n' = n_rep n ∨
    p_val P (n_rep n) = None ∧ is_Some (p_val P (n_rep n')) ∧ eqv (p_key P (n_rep n')) (p_key P (n_rep n)) = true.
  Definition evolves s s' : Prop := clock s ≤ clock s' ∧ (∀ a, a < clock s → ents s !! a = None → ents s' !! a = None) ∧
    ∀ a n, ents s !! a = Some n → (∃ n', ents s' !! a = Some n' ∧ kept n n') ∨
      (cnt s a = 0 ∧ ents s' !! a = None ∧ IErase a ∈ stack s gc_tid ∧ n_own n = Some gc_tid).

  Lemma ev_same s s' : ents s' = ents s → clock s' = clock s → evolves s s'.
  Proof. intros He Hc. unfold evolves. rewrite He, Hc. split_and!; [done|done|]. intros a n Hn. left. exists n. split; [done|by left]. Qed.
  Lemma ev_put s s' h n n' : ents s !! h = Some n → ents s' = <[h:=n']> (ents s) → clock s' = clock s → kept n n' → evolves s s'.
  Proof.
    intros Hn He Hc Hk. unfold evolves. rewrite He, Hc. split_and!; [done| |].
    - intros a _ Ha. rewrite lookup_insert_ne; [done|]. intros ->. congruence.
    - intros a m Hm. left. destruct (decide (a = h)) as [->|Hne]; [rewrite lookup_insert|rewrite lookup_insert_ne by done].
      + simplify_eq. eauto.
      + exists m. split; [done|by left].
  Qed.

  Lemma exec_ev s t i rest thr s' : Inv s → stack s t = i :: rest → exec s t i rest thr = Next s' → evolves s s'.
  Proof.
    intros HI Hst He. assert (Htop : i ∈ stack s t) by (rewrite Hst; left).
    pose proof (i_ok _ _ _ _ HI t i Htop) as Hok.
    destruct i as [x p [|y ys] got|x p r|x h p ks k|x h ks k|x h ks k|h|x h k|x|x h|x y hx hy|x y hx hy|x y hx hy|h [|j]|h|h|h];
      cbn [Concurrent.exec] in He; unfold add_ref, release in He.
    - repeat case_match; simplify_eq; by apply ev_same.
    - repeat case_match; simplify_eq. eapply ev_put; [done|done|done|by left].
    - destruct thr; [simplify_eq; by apply ev_same|]. destruct (find P eqv s (p_key P r)) as [h|] eqn:Ef.
      + destruct (ents s !! h) as [[r' c [?|]]|] eqn:Eh; simplify_eq. eapply ev_put; [done|done|done|by left].
      + simplify_eq. unfold evolves; simpl. split_and!; [lia| |].
        * intros a Ha Hn. rewrite lookup_insert_ne by lia. done.
        * intros a n Hn. left. exists n. split; [|by left]. rewrite lookup_insert_ne; [done|]. pose proof (i_low _ _ _ _ HI a n Hn). lia.
    - destruct Hok as [(ks0&r0&Hm&<-) (n&Hn&Hk)]. rewrite Hn in He. destruct (p_val P (n_rep n)) as [v|] eqn:Ev.
      + simplify_eq. by apply ev_same.
      + destruct thr; simplify_eq; [eapply ev_put; [done|done|done|by left]|].
        destruct (i_made _ _ _ _ HI h n Hn Ev) as (p'&ks'&Hm').
        destruct (po_build _ _ _ HP _ _ _ _ _ _ Hm Hm' Hk Ev) as (Hsv&Hgd&Hke&Hkd).
        eapply ev_put; [done|done|done|]. by right.
    - repeat case_match; simplify_eq. eapply ev_put; [done|done|done|by left].
    - repeat case_match; simplify_eq. eapply ev_put; [done|done|done|by left].
    - repeat case_match; simplify_eq. eapply ev_put; [done|done|done|by left].
    - simplify_eq. by apply ev_same.
    - simplify_eq. by apply ev_same.
    - repeat case_match; simplify_eq. by apply ev_same.
    - repeat case_match; simplify_eq. eapply ev_put; [done|done|done|by left].
    - repeat case_match; simplify_eq. eapply ev_put; [done|done|done|by left].
    - simplify_eq. by apply ev_same.
    - repeat case_match; simplify_eq. eapply ev_put; [done|done|done|by left].
    - repeat case_match; simplify_eq. eapply ev_put; [done|done|done|by left].
    - repeat case_match; simplify_eq; by apply ev_same.
    - destruct (ents s !! h) as [n|] eqn:Hn; simplify_eq. unfold evolves; simpl. split_and!; [done| |].
      + intros a _ Ha. destruct (decide (a = h)) as [->|Hne]; [by rewrite lookup_delete|by rewrite lookup_delete_ne].
      + intros a m Hm. destruct (decide (a = h)) as [->|Hne].
        * right. rewrite lookup_delete. simplify_eq. destruct (i_gc _ _ _ _ HI t _ Htop) as [Hg _]. specialize (Hg I). subst t.
          destruct (accessed P eqv good s gc_tid _ h HI Htop) as (n0&Hn0&Hown); [simpl; rewrite at_eq; lia|]. simplify_eq. done.
        * left. rewrite lookup_delete_ne by done. exists m. split; [done|by left].
    - repeat case_match; simplify_eq. eapply ev_put; [done|done|done|by left].
  Qed.

  Lemma start_ev s t op s' : start s t op = Next s' → evolves s s'.
  Proof.
    intros He. destruct op; simpl in He; unfold add_ref in He; repeat case_match; simplify_eq;
      first [by apply ev_same|eapply ev_put; [done|done|done|by left]].
  Qed.

  Lemma step_ev s l s' : Inv s → step s l = Next s' → evolves s s'.
  Proof.
    intros HI Hs. destruct l as [t op|t thr| |h|]; simpl in Hs.
    - repeat case_match; simplify_eq; by eapply start_ev.
    - destruct (stack s t) eqn:E; [done|]. by eapply exec_ev.
    - repeat case_match; simplify_eq. by apply ev_same.
    - repeat case_match; simplify_eq. eapply ev_put; [done|done|done|by left].
    - repeat case_match; simplify_eq. by apply ev_same.
  Qed.

  Lemma fits_keep s l s' h k : Inv s → step s l = Next s' → fits s h k → 0 < cnt s h → fits s' h k.
  Proof.
    intros HI Hs (n&Hn&Hk) Hc. destruct (step_ev s l s' HI Hs) as (_&_&Hev).
    destruct (Hev h n Hn) as [(n'&Hn'&Hkept)|(Hz&_)]; [|lia]. exists n'. split; [done|].
    destruct Hkept as [->|(_&_&E)]; [done|]. exact (eqv_trans _ Heq _ _ _ E Hk).
  Qed.
  (** contents of an entry in use never change *)
  Lemma rep_keep s l s' h n : Inv s → step s l = Next s' → ents s !! h = Some n → 0 < cnt s h →
    ∃ n', ents s' !! h = Some n' ∧ n_rep n' = n_rep n.
  Proof.
    intros HI Hs Hn Hc. destruct (step_ev s l s' HI Hs) as (_&_&Hev).
    destruct (Hev h n Hn) as [(n'&Hn'&[Hk|(Hv&_)])|(Hz&_)]; [eauto| |lia].
    destruct (i_cnt _ _ _ _ HI h n Hn) as [_ H]. specialize (H Hv). lia.
  Qed.

  (** ** refinement of the observer *)
  Inductive goal := GMake (x : var) (p : A) (ys : list var) (got : list addr) | GKey (x : var) (k : K) | GAbort (x : var)
    | GSwap (x y : var) (hx hy : addr).
  Definition goalof (i : instr) : option goal :=
    match i with
    | IMake x p ys got => Some (GMake x p ys got)
    | IEnter x p r => Some (GKey x (p_key P r))
    | IVisit x _ _ _ k | IAddRef x _ _ k | ILeave x _ _ k | IBind x _ k => Some (GKey x k)
    | IAbort x => Some (GAbort x)
    | ISwap1 x y hx hy | ISwap2 x y hx hy | ISwap3 x y hx hy => Some (GSwap x y hx hy)
    | _ => None
    end.
  Definition pend_ok s (k : list instr) (q : option pending) : Prop :=
    match q with
    | None => omap goalof k = []
    | Some (PNew x p ys got) =>
        k = [IMake x p ys got] ∨
        ys = [] ∧ (omap goalof k = [GAbort x] ∨ ∃ r, p_make P p got = Some r ∧ omap goalof k = [GKey x (p_key P r)])
    | Some (PSwap x y kx ky) => ∃ hx hy, omap goalof k = [GSwap x y hx hy] ∧ fits s hx kx ∧ fits s hy ky
    end.
  Definition val_ok s o x : Prop :=
    match vars s !! x with
    | Some (Some h) => ∃ k, o_vals o !! x = Some k ∧ fits s h k
    | _ => o_vals o !! x = None
    end.
  Definition J s o : Prop := (∀ x, val_ok s o x) ∧ ∀ t, pend_ok s (stack s t) (o_pend o !! t).

  Lemma omap_release (ks : list addr) : omap goalof (map IRelease ks) = [].
  Proof. by induction ks. Qed.

  (** what a thread does to its own goal and the variables *)
  Definition goal_step s s' i (g g' : list goal) : Prop :=
    match i with
    | IMake x p (y :: ys) got => ∃ h, live s y = Some h ∧ vars s' = vars s ∧ goalof i = Some (GMake x p (y :: ys) got) ∧ g' = GMake x p ys (got ++ [h]) :: g
    | IMake x p [] got => vars s' = vars s ∧
        match p_make P p got with Some r => g' = GKey x (p_key P r) :: g | None => g' = GAbort x :: g end
    | IBind x h k => vars s' = <[x:=Some h]> (vars s) ∧ g' = g
    | IAbort x => vars s' = delete x (vars s) ∧ g' = g
    | ISwap3 x y hx hy => vars s' = <[y:=Some hx]> (<[x:=Some hy]> (vars s)) ∧ g' = g
    | IEnter x _ _ | IVisit x _ _ _ _ => vars s' = vars s ∧ (g' = GAbort x :: g ∨ g' = omap goalof [i] ++ g)
    | _ => vars s' = vars s ∧ g' = omap goalof [i] ++ g
    end.
  Lemma exec_goal s t i rest thr s' : exec s t i rest thr = Next s' →
    goal_step s s' i (omap goalof rest) (omap goalof (stack s' t)) ∧ ∀ t', t' ≠ t → stack s' t' = stack s t'.
  Proof.
    intros He.
    assert (Hs : ∀ s1 new, stack (set_stack t new s1) t = new) by (intros; by rewrite stack_set, decide_True).
    assert (Hl : ∀ s1 new e, stack (add_log e (set_stack t new s1)) t = new).
    { intros. unfold stack. simpl. by rewrite lookup_insert. }
    assert (Hc : ∀ s1 new e, stack (set_clock e (set_stack t new s1)) t = new).
    { intros. unfold stack. simpl. by rewrite lookup_insert. }
    split.
    - destruct i as [x p [|y ys] got|x p r|x h p ks k|x h ks k|x h ks k|h|x h k|x|x h|x y hx hy|x y hx hy|x y hx hy|h [|j]|h|h|h];
      cbn [Concurrent.exec] in He; unfold add_ref, release in He; repeat case_match; simplify_eq; cbn [goal_step];
      rewrite ?Hs, ?Hl, ?Hc; simpl; rewrite ?omap_app, ?omap_release; simpl; rewrite ?omap_app, ?omap_release; simpl; eauto.
      + by rewrite H.
      + by rewrite H.
    - intros t' Hne. assert (stacks s' = stacks s ∨ ∃ new, stacks s' = <[t:=new]> (stacks s)) as [E|[new E]].
      { destruct i as [x p [|y ys] got|x p r|x h p ks k|x h ks k|x h ks k|h|x h k|x|x h|x y hx hy|x y hx hy|x y hx hy|h [|j]|h|h|h];
        cbn [Concurrent.exec] in He; unfold add_ref, release in He; repeat case_match; simplify_eq; simpl; eauto. }
      + unfold stack. by rewrite E.
      + unfold stack. by rewrite E, lookup_insert_ne.
  Qed.

  Lemma making_goal s t x i : Inv s → i ∈ stack s t → 0 < making x i → vars s !! x = Some None.
  Proof.
    intros HI Hi Hp. pose proof (tsum_elem (making x) s t i Hi) as E. pose proof (i_vars _ _ _ _ HI x) as E2.
    destruct (vars s !! x) as [[h|]|]; [lia|done|lia].
  Qed.

  Lemma goal_in s t g : g ∈ omap goalof (stack s t) → ∃ i, i ∈ stack s t ∧ goalof i = Some g.
  Proof. intros (i&Hi&Hg)%elem_of_list_omap. eauto. Qed.
  Lemma goal_making s t g x : Inv s → g ∈ omap goalof (stack s t) →
    match g with GMake y _ _ _ | GKey y _ | GAbort y => x = y | GSwap y z _ _ => x = y ∨ x = z end → vars s !! x = Some None.
  Proof.
    intros HI (i&Hi&Hg)%goal_in Hx. eapply making_goal; [done|exact Hi|].
    destruct i; simplify_eq/=; rewrite ?at_eq; try lia; destruct Hx as [->| ->]; rewrite ?at_eq; lia.
  Qed.
  Lemma goal_swap_cnt s t x y hx hy : GSwap x y hx hy ∈ omap goalof (stack s t) → 0 < cnt s hx ∧ 0 < cnt s hy.
  Proof.
    intros (i&Hi&Hg)%goal_in. split; (eapply cnt_own; [exact Hi|]); destruct i; simplify_eq/=; rewrite at_eq; lia.
  Qed.

  Lemma pend_keep s l s' k q : Inv s → step s l = Next s' → pend_ok s k q →
    (∀ x y kx ky hx hy, q = Some (PSwap x y kx ky) → omap goalof k = [GSwap x y hx hy] → 0 < cnt s hx ∧ 0 < cnt s hy) → pend_ok s' k q.
  Proof.
    intros HI Hs Hp Hc. destruct q as [[x p ys got|x y kx ky]|]; simpl in *; [done| |done].
    destruct Hp as (hx&hy&Hg&H1&H2). destruct (Hc _ _ _ _ _ _ eq_refl Hg) as [C1 C2]. exists hx, hy. split_and!; [done| |];
      by eapply fits_keep.
  Qed.
  Lemma pend_keep' s l s' t q : Inv s → step s l = Next s' → pend_ok s (stack s t) q → pend_ok s' (stack s t) q.
  Proof.
    intros HI Hs Hp. eapply pend_keep; [done..|]. intros x y kx ky hx hy -> Hg. eapply (goal_swap_cnt s t). rewrite Hg. left.
  Qed.
  Lemma val_keep s l s' o x : Inv s → step s l = Next s' → val_ok s o x → vars s' !! x = vars s !! x → val_ok s' o x.
  Proof.
    intros HI Hs Hv E. unfold val_ok in *. rewrite E. destruct (vars s !! x) as [[h|]|] eqn:Ex; [|done|done].
    destruct Hv as (k&Hk&Hf). exists k. split; [done|]. eapply fits_keep; [done..|]. by eapply cnt_var.
  Qed.

  Lemma J_run s t thr s' o : Inv s → J s o → step s (LRun t thr) = Next s' → J s' (observe s (LRun t thr) s' o).
  Proof.
    intros HI [Hv Hp] Hstep. pose proof Hstep as He. simpl in He. destruct (stack s t) as [|i rest] eqn:Hst; [done|].
    destruct (exec_goal s t i rest thr s' He) as [Hg Hoth].
    assert (Htop : i ∈ stack s t) by (rewrite Hst; left).
    assert (Hp' : ∀ t', t' ≠ t → pend_ok s' (stack s' t') (o_pend o !! t')).
    { intros t' Hne. rewrite Hoth by done. eapply pend_keep'; [done|exact Hstep|apply Hp]. }
    assert (Hsame : vars s' = vars s → ∀ q x, val_ok s' (Obs (o_vals o) q) x).
    { intros E q x. eapply (val_keep s _ s' o); [done|exact Hstep|apply Hv|by rewrite E]. }
    assert (Hins : ∀ q, pend_ok s' (stack s' t) (Some q) → ∀ t', pend_ok s' (stack s' t') (<[t:=q]> (o_pend o) !! t')).
    { intros q Hq t'. destruct (decide (t' = t)) as [->|Hne]; [by rewrite lookup_insert|]. rewrite lookup_insert_ne by done. by apply Hp'. }
    assert (Hdel : pend_ok s' (stack s' t) None → ∀ t', pend_ok s' (stack s' t') (delete t (o_pend o) !! t')).
    { intros Hq t'. destruct (decide (t' = t)) as [->|Hne]; [by rewrite lookup_delete|]. rewrite lookup_delete_ne by done. by apply Hp'. }
    assert (Hnop : vars s' = vars s → pend_ok s' (stack s' t) (o_pend o !! t) → J s' o).
    { intros E Hq. split; [intros x; eapply (val_keep s _ s' o); [done|exact Hstep|apply Hv|by rewrite E]|].
      intros t'. destruct (decide (t' = t)) as [->|Hne]; [done|by apply Hp']. }
    pose proof (Hp t) as Hpt. rewrite Hst in Hpt. cbn [ConcurrentSpec.observe].
    destruct (o_pend o !! t) as [[x p ys got|x y kx ky]|] eqn:Eo.
    - destruct Hpt as [Hpt|[-> Hpt]].
      + injection Hpt as -> ->. destruct ys as [|y ys]; cbn [goal_step] in Hg.
        * destruct Hg as [Ev Hg]. rewrite Ev, (making_goal s t x _ HI Htop) by (simpl; rewrite at_eq; lia).
          apply Hnop; [done|]. rewrite ?Eo. right. split; [done|]. destruct (p_make P p got) as [r|]; [right; by exists r|by left].
        * destruct Hg as (h&Hl&Ev&_&Hg). rewrite Hl. split; [by apply Hsame|]. apply Hins. left.
          simpl in He. rewrite Hl in He. unfold add_ref in He. destruct (ents s !! h); simplify_eq. by rewrite stack_set, decide_True.
      + assert (Hx : vars s !! x = Some None).
        { destruct Hpt as [Hpt|(r&_&Hpt)]; (eapply (goal_making s t); [done|rewrite Hst, Hpt; by left|done]). }
        assert (Hcase : (goalof i = None ∧ (omap goalof rest = [GAbort x] ∨ ∃ r, p_make P p got = Some r ∧ omap goalof rest = [GKey x (p_key P r)])) ∨
          (omap goalof rest = [] ∧ (goalof i = Some (GAbort x) ∨ ∃ r, p_make P p got = Some r ∧ goalof i = Some (GKey x (p_key P r))))).
        { cbn [omap list_omap] in Hpt. destruct (goalof i) as [g|]; [right|by left].
          destruct Hpt as [[= -> Hpt]|(r&Hr&[= -> Hpt])]; (split; [done|]); [by left|right; by exists r]. }
        destruct Hcase as [[Hi Hr]|[Hr Hi]].
        * assert (vars s' = vars s ∧ omap goalof (stack s' t) = omap goalof rest) as [Ev Eg].
          { destruct i; simplify_eq; cbn [goal_step] in Hg; destruct Hg as [Ev Hg]; split; done. }
          rewrite Ev, Hx. apply Hnop; [done|]. rewrite ?Eo. right. split; [done|]. by rewrite Eg.
        * destruct i; simpl in Hi; try (by destruct Hi as [|(?&_&?)]); cbn [goal_step] in Hg; rewrite Hr in Hg.
          -- destruct Hi as [|(r'&Hr'&[= -> E])]; [done|]. destruct Hg as [Ev Hg]. rewrite Ev, Hx. apply Hnop; [done|]. rewrite ?Eo. right. split; [done|].
             destruct Hg as [Hg|Hg]; [by left|right]. exists r'. split; [done|]. rewrite Hg. simpl. by rewrite E.
          -- destruct Hi as [|(r'&Hr'&[= -> E])]; [done|]. destruct Hg as [Ev Hg]. rewrite Ev, Hx. apply Hnop; [done|]. rewrite ?Eo. right. split; [done|].
             destruct Hg as [Hg|Hg]; [by left|right]. exists r'. split; [done|]. rewrite Hg. simpl. by rewrite E.
          -- destruct Hi as [|(r'&Hr'&[= -> E])]; [done|]. destruct Hg as [Ev Hg]. rewrite Ev, Hx. apply Hnop; [done|]. rewrite ?Eo. right. split; [done|].
             right. exists r'. split; [done|]. rewrite Hg. simpl. by rewrite E.
          -- destruct Hi as [|(r'&Hr'&[= -> E])]; [done|]. destruct Hg as [Ev Hg]. rewrite Ev, Hx. apply Hnop; [done|]. rewrite ?Eo. right. split; [done|].
             right. exists r'. split; [done|]. rewrite Hg. simpl. by rewrite E.
          -- destruct Hi as [|(r'&Hr'&[= -> E])]; [done|]. destruct Hg as [Ev Hg]. rewrite Ev, lookup_insert, Hr'. split; [|by apply Hdel].
             intros z. unfold val_ok. simpl. rewrite Ev. destruct (decide (z = x)) as [->|Hne].
             ++ rewrite !lookup_insert. exists (p_key P r'). split; [done|]. pose proof (i_ok _ _ _ _ HI t _ Htop) as Hf. simpl in Hf. subst k.
                eapply fits_keep; [done|exact Hstep|done|]. eapply cnt_own; [exact Htop|]. simpl. rewrite at_eq. lia.
             ++ rewrite !lookup_insert_ne by done. pose proof (val_keep s _ s' o z HI Hstep (Hv z)) as Hz.
                unfold val_ok in Hz. rewrite Ev, lookup_insert_ne in Hz by done. by apply Hz.
          -- destruct Hi as [[= ->]|(?&_&?)]; [|done]. destruct Hg as [Ev Hg]. rewrite Ev, lookup_delete. split; [|by apply Hdel].
             intros z. unfold val_ok. simpl. rewrite Ev. destruct (decide (z = x)) as [->|Hne].
             ++ rewrite lookup_delete. specialize (Hv x). unfold val_ok in Hv. by rewrite Hx in Hv.
             ++ rewrite lookup_delete_ne by done. pose proof (val_keep s _ s' o z HI Hstep (Hv z)) as Hz.
                unfold val_ok in Hz. rewrite Ev, lookup_delete_ne in Hz by done. by apply Hz.
    - destruct Hpt as (hx&hy&Hpt&Hfx&Hfy).
      assert (Hin : GSwap x y hx hy ∈ omap goalof (stack s t)) by (rewrite Hst, Hpt; left).
      destruct (goal_swap_cnt s t x y hx hy Hin) as [Cx Cy].
      assert (Hx : vars s !! x = Some None) by (eapply (goal_making s t); [done|exact Hin|by left]).
      assert (Hy : vars s !! y = Some None) by (eapply (goal_making s t); [done|exact Hin|by right]).
      assert (Hfx' : fits s' hx kx) by (by eapply fits_keep).
      assert (Hfy' : fits s' hy ky) by (by eapply fits_keep).
      cbn [omap list_omap] in Hpt. destruct (goalof i) as [g|] eqn:Hgi.
      + injection Hpt as -> Hr. rewrite Hr in Hg. destruct i; try discriminate Hgi; injection Hgi as -> -> -> ->; cbn [goal_step] in Hg.
        * destruct Hg as [Ev Hg]. rewrite Ev, Hx. apply Hnop; [done|]. rewrite ?Eo. by exists hx, hy.
        * destruct Hg as [Ev Hg]. rewrite Ev, Hx. apply Hnop; [done|]. rewrite ?Eo. by exists hx, hy.
        * destruct Hg as [Ev Hg].
          assert (Hne : x ≠ y).
          { intros ->. pose proof (tsum_elem (making y) s t _ Htop) as E. simpl in E. rewrite at_eq, (i_vars _ _ _ _ HI y), Hy in E. lia. }
          rewrite Ev. rewrite (lookup_insert_ne _ y x) by congruence. rewrite lookup_insert. split; [|by apply Hdel].
          intros z. unfold val_ok. simpl. rewrite Ev. destruct (decide (z = y)) as [->|Hzy]; [rewrite !lookup_insert; by exists kx|].
          rewrite !(lookup_insert_ne _ y) by done. destruct (decide (z = x)) as [->|Hzx]; [rewrite !lookup_insert; by exists ky|].
          rewrite !lookup_insert_ne by done. pose proof (val_keep s _ s' o z HI Hstep (Hv z)) as Hz.
          unfold val_ok in Hz. rewrite Ev, !lookup_insert_ne in Hz by done. by apply Hz.
      + assert (vars s' = vars s ∧ omap goalof (stack s' t) = omap goalof rest) as [Ev Eg].
        { destruct i; simplify_eq; cbn [goal_step] in Hg; destruct Hg as [Ev Hg]; split; done. }
        rewrite Ev, Hx. apply Hnop; [done|]. rewrite ?Eo. exists hx, hy. by rewrite Eg.
    - cbn [pend_ok] in Hpt. cbn [omap list_omap] in Hpt. destruct (goalof i) eqn:Hgi; [done|].
      assert (vars s' = vars s ∧ omap goalof (stack s' t) = omap goalof rest) as [Ev Eg].
      { destruct i; simplify_eq; cbn [goal_step] in Hg; destruct Hg as [Ev Hg]; split; done. }
      apply Hnop; [done|]. rewrite ?Eo. simpl. by rewrite Eg.
  Qed.

  Lemma start_stack s t op s' : stack s t = [] → start s t op = Next s' → ∀ t', t' ≠ t → stack s' t' = stack s t'.
  Proof.
    intros Hst He t' Hne. assert (∃ new, stacks s' = <[t:=new]> (stacks s)) as [new E].
    { destruct op; simpl in He; unfold add_ref in He; repeat case_match; simplify_eq; simpl; eauto. }
    unfold stack. by rewrite E, lookup_insert_ne.
  Qed.

  Lemma J_start s t op s' o : Inv s → J s o → step s (LStart t op) = Next s' → J s' (observe s (LStart t op) s' o).
  Proof.
    intros HI [Hv Hp] Hstep. pose proof Hstep as He. simpl in He. case_decide as Htg; [done|]. destruct (stack s t) eqn:Hst; [|done].
    pose proof (start_stack s t op s' Hst He) as Hoth.
    assert (Hp' : ∀ t', t' ≠ t → pend_ok s' (stack s' t') (o_pend o !! t')).
    { intros t' Hne. rewrite Hoth by done. eapply pend_keep'; [done|exact Hstep|apply Hp]. }
    assert (Hz : ∀ z, vars s' !! z = vars s !! z → val_ok s' o z) by (intros z E; by eapply (val_keep s _ s' o)).
    pose proof (Hp t) as Hpt. rewrite Hst in Hpt.
    assert (Hnone : o_pend o !! t = None).
    { destruct (o_pend o !! t) as [[x p ys got|x y kx ky]|]; simpl in Hpt; [|destruct Hpt as (?&?&?&_); done|done].
      destruct Hpt as [|[_ [|(?&_&?)]]]; done. }
    assert (Hins : ∀ q, pend_ok s' (stack s' t) (Some q) → ∀ t', pend_ok s' (stack s' t') (<[t:=q]> (o_pend o) !! t')).
    { intros q Hq t'. destruct (decide (t' = t)) as [->|Hne]; [by rewrite lookup_insert|]. rewrite lookup_insert_ne by done. by apply Hp'. }
    assert (Hkeep : omap goalof (stack s' t) = [] → ∀ t', pend_ok s' (stack s' t') (o_pend o !! t')).
    { intros Hq t'. destruct (decide (t' = t)) as [->|Hne]; [by rewrite Hnone|]. by apply Hp'. }
    assert (Hs : ∀ s1 new, stack (set_stack t new s1) t = new) by (intros; by rewrite stack_set, decide_True).
    assert (Hl : ∀ s1 new e, stack (add_log e (set_stack t new s1)) t = new).
    { intros. unfold stack. simpl. by rewrite lookup_insert. }
    destruct op as [x p ys|x y|x y|x y|x|x]; cbn [start] in He; cbn [ConcurrentSpec.observe].
    - destruct (vars s !! x) eqn:Ex; simplify_eq. split.
      + intros z. destruct (decide (z = x)) as [->|Hne].
        * unfold val_ok. simpl. rewrite lookup_insert. specialize (Hv x). unfold val_ok in Hv. by rewrite Ex in Hv.
        * apply (Hz z). simpl. by rewrite lookup_insert_ne.
      + apply Hins. rewrite Hs. by left.
    - destruct (vars s !! x) eqn:Ex; [done|]. destruct (live s y) as [h|] eqn:El; [|done]. apply live_vars in El.
      pose proof (Hv y) as Hy. unfold val_ok in Hy. rewrite El in Hy. destruct Hy as (k&Hk&Hf). rewrite Hk.
      pose proof (fits_keep s _ s' h k HI Hstep Hf (cnt_var P s y h El)) as Hf'.
      unfold add_ref in He. destruct (ents s !! h); simplify_eq. split; [|apply Hkeep; by rewrite Hl].
      intros z. destruct (decide (z = x)) as [->|Hne].
      + unfold val_ok. simpl. rewrite !lookup_insert. by exists k.
      + assert (E : vars s !! z = <[x:=Some h]> (vars s) !! z) by (by rewrite lookup_insert_ne).
        pose proof (Hz z (eq_sym E)) as Hvz. unfold val_ok in *. simpl in *. by rewrite (lookup_insert_ne (o_vals o)).
    - destruct (live s x) as [hx|] eqn:Ex; [|done]. destruct (live s y) as [h|] eqn:El; [|done]. apply live_vars in El, Ex.
      pose proof (Hv y) as Hy. unfold val_ok in Hy. rewrite El in Hy. destruct Hy as (k&Hk&Hf). rewrite Hk.
      pose proof (fits_keep s _ s' h k HI Hstep Hf (cnt_var P s y h El)) as Hf'.
      unfold add_ref in He. destruct (ents s !! h); simplify_eq. split; [|apply Hkeep; by rewrite Hl].
      intros z. destruct (decide (z = x)) as [->|Hne].
      + unfold val_ok. simpl. rewrite !lookup_insert. by exists k.
      + assert (E : vars s !! z = <[x:=Some h]> (vars s) !! z) by (by rewrite lookup_insert_ne).
        pose proof (Hz z (eq_sym E)) as Hvz. unfold val_ok in *. simpl in *. by rewrite (lookup_insert_ne (o_vals o)).
    - destruct (live s x) as [hx|] eqn:Ex; [|done]. destruct (live s y) as [hy|] eqn:Ey; [|done]. apply live_vars in Ey, Ex.
      pose proof (Hv x) as Hvx. unfold val_ok in Hvx. rewrite Ex in Hvx. destruct Hvx as (kx&Hkx&Hfx). rewrite Hkx.
      pose proof (Hv y) as Hvy. unfold val_ok in Hvy. rewrite Ey in Hvy. destruct Hvy as (ky&Hky&Hfy). rewrite Hky.
      pose proof (fits_keep s _ s' hx kx HI Hstep Hfx (cnt_var P s x hx Ex)) as Hfx'.
      pose proof (fits_keep s _ s' hy ky HI Hstep Hfy (cnt_var P s y hy Ey)) as Hfy'.
      unfold add_ref in He. destruct (ents s !! hx); [|done]. destruct (decide (x = y)) as [Hxy|Hxy]; simplify_eq.
      + split; [|apply Hkeep; by rewrite Hl]. intros z. by apply Hz.
      + split.
        * intros z. unfold val_ok. simpl. destruct (decide (z = y)) as [->|Hzy]; [by rewrite lookup_insert, lookup_delete|].
          rewrite lookup_insert_ne, lookup_delete_ne by done. destruct (decide (z = x)) as [->|Hzx]; [by rewrite lookup_insert, lookup_delete|].
          rewrite lookup_insert_ne, lookup_delete_ne by done. unfold val_ok in Hz. simpl in Hz. specialize (Hz z). rewrite !lookup_insert_ne in Hz by done. by apply Hz.
        * apply Hins. rewrite Hs. by exists hx, hy.
    - destruct (live s x) as [h|] eqn:Ex; [|done]. simplify_eq. split; [|apply Hkeep; by rewrite Hl].
      intros z. unfold val_ok. simpl. destruct (decide (z = x)) as [->|Hzx]; [by rewrite !lookup_delete|].
      rewrite !lookup_delete_ne by done. unfold val_ok in Hz. simpl in Hz. specialize (Hz z). rewrite !lookup_delete_ne in Hz by done. by apply Hz.
    - destruct (live s x) as [h|] eqn:Ex; [|done]. unfold add_ref in He. destruct (ents s !! h); simplify_eq.
      split; [|apply Hkeep; by rewrite Hs]. intros z. by apply Hz.
  Qed.

  Lemma J_step s l s' o : Inv s → J s o → step s l = Next s' → J s' (observe s l s' o).
  Proof.
    intros HI HJ Hs. destruct l as [t op|t thr| |h|]; [by apply J_start|by eapply J_run| | |]; pose proof HJ as [Hv Hp].
    - assert (vars s' = vars s ∧ stacks s' = stacks s) as [Ev Es] by (simpl in Hs; repeat case_match; simplify_eq; done).
      split; [intros x; eapply (val_keep s _ s' o); [done|exact Hs|apply Hv|by rewrite Ev]|].
      intros t. replace (stack s' t) with (stack s t) by (unfold stack; by rewrite Es). eapply pend_keep'; [done|exact Hs|apply Hp].
    - pose proof Hs as Hs0. simpl in Hs0. destruct (todo s); [|done]. destruct (stack s gc_tid) eqn:Eg; [|done].
      destruct (ents s !! h) as [[r c [?|]]|]; simplify_eq. split; [intros x; by eapply (val_keep s _ _ o)|].
      intros t. destruct (decide (t = gc_tid)) as [->|Hne].
      + rewrite stack_set, decide_True by done. specialize (Hp gc_tid). rewrite Eg in Hp. cbn [ConcurrentSpec.observe].
        destruct (o_pend o !! gc_tid) as [[x p ys got|x y kx ky]|]; simpl in *; [|destruct Hp as (?&?&?&_); done|done].
        destruct Hp as [|[_ [|(?&_&?)]]]; done.
      + rewrite stack_set, decide_False by done. change (stack _ t) with (stack s t). eapply pend_keep'; [done|exact Hs|apply Hp].
    - assert (vars s' = vars s ∧ stacks s' = stacks s) as [Ev Es] by (simpl in Hs; repeat case_match; simplify_eq; done).
      split; [intros x; eapply (val_keep s _ s' o); [done|exact Hs|apply Hv|by rewrite Ev]|].
      intros t. replace (stack s' t) with (stack s t) by (unfold stack; by rewrite Es). eapply pend_keep'; [done|exact Hs|apply Hp].
  Qed.

  Lemma J_watch ls s o s' : Inv s → J s o → run s ls = Next s' → J s' (watch s o ls).
  Proof.
    revert s o. induction ls as [|l ls IH]; intros s o HI HJ Hr; simpl in *; [by simplify_eq|].
    destruct (step s l) as [s1| |] eqn:E; [|by apply IH|done]. apply IH; [by eapply step_next|by apply J_step|done].
  Qed.
  Lemma J_init : J init (Obs ∅ ∅).
  Proof. split; [intros x; done|]. intros t. done. Qed.

  Lemma value_some s x h : Inv s → vars s !! x = Some (Some h) → ∃ n, ents s !! h = Some n ∧ value_of s x = Some (h, n_rep n) ∧
    is_Some (p_val P (n_rep n)) ∧ good (n_rep n).
  Proof.
    intros HI Hx. destruct (present P eqv good s h HI (cnt_var P s x h Hx)) as (n&Hn&Hv). exists n.
    unfold value_of. rewrite Hx, Hn. split_and!; try done. by eapply (i_good _ _ _ _ HI).
  Qed.
  Lemma value_inv s x h r : value_of s x = Some (h, r) → vars s !! x = Some (Some h) ∧ ∃ n, ents s !! h = Some n ∧ n_rep n = r.
  Proof. unfold value_of. destruct (vars s !! x) as [[h0|]|]; [|done|done]. destruct (ents s !! h0) as [n|] eqn:E; [|done]. intros [= -> <-]. eauto. Qed.

  Lemma transparency ls s x : run init ls = Next s →
    match value_of s x with
    | Some (h, r) => ∃ k, o_vals (watch init (Obs ∅ ∅) ls) !! x = Some k ∧ eqv (p_key P r) k = true
    | None => o_vals (watch init (Obs ∅ ∅) ls) !! x = None
    end.
  Proof.
    intros Hr. pose proof (reach_inv s ltac:(by exists ls)) as HI.
    destruct (J_watch ls init _ s (init_inv P eqv good) J_init Hr) as [Hv _]. specialize (Hv x). unfold val_ok in Hv.
    destruct (vars s !! x) as [[h|]|] eqn:Ex.
    - destruct (value_some s x h HI Ex) as (n&Hn&->&_). destruct Hv as (k&Hk&m&Hm&E). simplify_eq. eauto.
    - unfold value_of. by rewrite Ex.
    - unfold value_of. by rewrite Ex.
  Qed.

  Lemma sharing s x y hx rx hy ry : Inv s → value_of s x = Some (hx, rx) → value_of s y = Some (hy, ry) →
    (hx = hy ↔ eqv (p_key P rx) (p_key P ry) = true).
  Proof.
    intros HI (_&n&Hn&<-)%value_inv (_&m&Hm&<-)%value_inv. split; [intros ->; simplify_eq; apply Heq|]. by apply (i_uniq _ _ _ _ HI).
  Qed.

  Lemma step_vars s l s' x h : step s l = Next s' → Inv s → vars s !! x = Some (Some h) → touches x l = false → vars s' !! x = Some (Some h).
  Proof.
    intros Hs HI Hx Ht. destruct l as [t op|t thr| |a|]; simpl in Hs.
    - case_decide; [done|]. destruct (stack s t) eqn:E; [|done].
      destruct op as [y p ys|y z|y z|y z|y|y]; simpl in Hs, Ht; unfold add_ref in Hs; repeat case_match; simplify_eq; simpl;
        try case_bool_decide; simplify_eq; rewrite ?lookup_insert_ne, ?lookup_delete_ne by congruence; try done.
      all: try (case_bool_decide; simplify_eq; rewrite ?lookup_insert_ne by congruence; done).
    - destruct (stack s t) as [|i rest] eqn:E; [done|]. destruct (exec_goal s t i rest thr s' Hs) as [Hg _].
      assert (Hm : making x i = 0).
      { destruct (making x i) eqn:Em; [done|]. assert (vars s !! x = Some None); [|congruence].
        eapply (making_goal s t); [done|rewrite E; left|lia]. }
      destruct i as [y p [|z ys] got|y p r|y h' p ks k|y h' ks k|y h' ks k|h'|y h' k|y|y h'|y z hx hy|y z hx hy|y z hx hy|h' j|h'|h'|h'];
        cbn [goal_step] in Hg; try (destruct Hg as [-> _]; exact Hx); try (destruct Hg as (?&_&->&_); exact Hx); destruct Hg as [-> _]; simpl in Hm;
        unfold at_ in Hm; repeat case_decide; try done; rewrite ?lookup_insert_ne, ?lookup_delete_ne by congruence; done.
    - repeat case_match; simplify_eq; done.
    - repeat case_match; simplify_eq; done.
    - repeat case_match; simplify_eq; done.
  Qed.

  Lemma stability ls s s' x h r : Inv s → Forall (λ l, touches x l = false) ls → run s ls = Next s' →
    value_of s x = Some (h, r) → value_of s' x = Some (h, r).
  Proof.
    revert s. induction ls as [|l ls IH]; intros s HI Ht Hr Hx; simpl in *; [by simplify_eq|]. inversion Ht; subst.
    destruct (step s l) as [s1| |] eqn:E; [|by apply (IH s)|done]. eapply (IH s1); [by eapply step_next|done|done|].
    apply value_inv in Hx as (Hx&n&Hn&<-). destruct (rep_keep s l s1 h n HI E Hn (cnt_var P s x h Hx)) as (n'&Hn'&<-).
    unfold value_of. by rewrite (step_vars s l s1 x h), Hn'.
  Qed.
End Proofs.
