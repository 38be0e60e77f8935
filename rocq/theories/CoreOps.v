(** Effects of copy, assignment, swap, destruction and get on the objects of
    the program. *)
From Verif Require Export CoreSolo CoreTrace.

Section Ops.
  Context {K A R V : Type}.
  Context (P : policy K A R V) (FS : factory K) (cfg : config).
  Context (eqv : K → K → bool) (good : R → Prop).
  Context (Heq : equivalence eqv) (HP : policy_ok eqv good P) (HF : factory_spec eqv FS).
  Context (t0 : tid).

  Notation state := (state (R:=R) (K:=K) (A:=A) FS).
  Notation label := (label (A:=A)).
  Notation Inv := (Inv P FS cfg eqv good HF t0).
  Notation allowed := (allowed cfg t0).
  Notation step := (step P FS cfg).
  Notation run := (run P FS cfg).
  Notation reachable := (reachable P FS cfg t0).
  Implicit Types (s : state).

  Lemma value_of_shape s s' z z' : Inv s → Inv s' → (∀ b, shape FS s' b = shape FS s b) →
    vars s' !! z = vars s !! z' → value_of s' z = value_of s z'.
  Proof.
    intros HI HI' Hsh Hz. unfold value_of. rewrite Hz. destruct (vars s !! z') as [[h|]|] eqn:E; [|done..].
    destruct (var_entry P FS cfg eqv good HF t0 _ _ _ HI E) as (n&Hn&_).
    destruct (shape_entry _ _ _ _ _ (Hsh h) Hn) as (m&Hm&Hr&_).
    apply entry_heap in Hn as [-> _]. apply entry_heap in Hm as [-> _]. by rewrite Hr.
  Qed.

  Lemma start_facts s t o s' : reachable s → allowed t → step s (LStart t o) = Next s' →
    Inv s ∧ Inv s' ∧ eff P FS cfg eqv s (LStart t o) s'.
  Proof.
    intros Hre Hal Hs. pose proof (reach_inv P FS cfg eqv good Heq HP HF t0 s Hre) as HI.
    pose proof (step_ok P FS cfg eqv good Heq HP HF t0 s (LStart t o) HI Hal) as Hok. rewrite Hs in Hok.
    split_and!; [done|done|]. by eapply eff_step.
  Qed.

  Lemma start_eff s t o s' : eff P FS cfg eqv s (LStart t o) s' →
    ∃ oe, (∀ b, shape FS s' b = shape FS s b) ∧ veff P FS eqv s (LStart t o) (vars s') oe ∧
      log s' = option_list oe ++ log s.
  Proof. destruct 1; try done. eexists. split_and!; [by apply shape_same|done|done]. Qed.

  Lemma copy_step s t x y s' : reachable s → allowed t → step s (LStart t (OCopy x y)) = Next s' →
    value_of s' x = value_of s y ∧ is_Some (value_of s y) ∧
    (∀ z, z ≠ x → value_of s' z = value_of s z) ∧ ∀ t', stack s' t' = stack s t'.
  Proof.
    intros Hre Hal Hs. destruct (start_facts _ _ _ _ Hre Hal Hs) as (HI&HI'&(oe&Hsh&Hv&_)%start_eff).
    assert (Hst : ∀ t', stack s' t' = stack s t').
    { simpl in Hs. destruct (stack s t); [|done]. simpl in Hs. destruct (vars s !! x); [done|].
      destruct (live s y) as [h|]; [|done]. unfold copy_handle in Hs. repeat case_match; simplify_eq; done. }
    assert (∃ h, vars s !! y = Some (Some h) ∧ vars s' = <[x:=Some h]> (vars s)) as (h&Hy&E).
    { simpl in Hs. destruct (stack s t); [|done]. simpl in Hs. destruct (vars s !! x) eqn:Hx; [done|].
      destruct (live s y) as [h|] eqn:Hl; [|done]. apply live_vars in Hl. exists h. split; [done|].
      unfold copy_handle in Hs. repeat case_match; simplify_eq; done. }
    split_and!; [| | |done].
    - apply value_of_shape; [done..|]. by rewrite E, lookup_insert.
    - destruct (no_dangling P FS cfg eqv good Heq HP HF t0 _ _ _ Hre Hy) as (r&->&_). eauto.
    - intros z Hz. apply value_of_shape; [done..|]. by rewrite E, lookup_insert_ne.
  Qed.

  Lemma assign_step s t x y s' : reachable s → allowed t → step s (LStart t (OAssign x y)) = Next s' →
    value_of s' x = value_of s y ∧ is_Some (value_of s y) ∧ ∀ z, z ≠ x → value_of s' z = value_of s z.
  Proof.
    intros Hre Hal Hs. destruct (start_facts _ _ _ _ Hre Hal Hs) as (HI&HI'&(oe&Hsh&Hv&_)%start_eff).
    assert (∃ h, vars s !! y = Some (Some h) ∧ vars s' = <[x:=Some h]> (vars s)) as (h&Hy&E).
    { simpl in Hs. destruct (stack s t); [|done]. simpl in Hs. destruct (live s x) as [hx|]; [|done].
      destruct (live s y) as [h|] eqn:Hl; [|done]. apply live_vars in Hl. exists h. split; [done|].
      unfold copy_handle in Hs. repeat case_match; simplify_eq; done. }
    split_and!.
    - apply value_of_shape; [done..|]. by rewrite E, lookup_insert.
    - destruct (no_dangling P FS cfg eqv good Heq HP HF t0 _ _ _ Hre Hy) as (r&->&_). eauto.
    - intros z Hz. apply value_of_shape; [done..|]. by rewrite E, lookup_insert_ne.
  Qed.

  (** the new value is acquired before the old one is released *)
  Lemma assign_order s t x y s' : reachable s → allowed t → step s (LStart t (OAssign x y)) = Next s' →
    log s' = EvAssign x y :: log s ∧ cont s' = cont s ∧
    ∃ hx hy, vars s !! x = Some (Some hx) ∧ vars s !! y = Some (Some hy) ∧ vars s' !! x = Some (Some hy) ∧
      stack s' t = [IRelease hx] ∧
      ∀ b n, entry s b = Some n → ∃ n', entry s' b = Some n' ∧ n_rep n' = n_rep n ∧ n_del n' = n_del n ∧
        n_ref n' = (n_ref n + (if trk cfg && bool_decide (b = hy) then 1 else 0))%Z.
  Proof.
    intros Hre Hal Hs. destruct (start_facts _ _ _ _ Hre Hal Hs) as (HI&_&_).
    simpl in Hs. destruct (stack s t) eqn:Hst; [|done]. simpl in Hs.
    destruct (live s x) as [hx|] eqn:Hx; [|done]. destruct (live s y) as [hy|] eqn:Hy; [|done].
    apply live_vars in Hx, Hy. unfold copy_handle in Hs. destruct (trk cfg) eqn:Ht; simpl.
    - destruct (entry s hy) as [m|] eqn:Hm; [|done]. simplify_eq. simpl. split_and!; [done..|].
      exists hx, hy. split_and!; [done|done|by rewrite lookup_insert|by unfold stack; simpl; rewrite lookup_insert|].
      intros b n Hn. apply entry_heap in Hn as [Hn Hl]. apply entry_heap in Hm as [Hm Hml].
      case_bool_decide as Hb.
      + subst b. rewrite Hm in Hn. injection Hn as <-. exists (with_ref m (n_ref m + 1)). split_and!; [|done..].
        unfold entry. simpl. by rewrite lookup_insert; simpl; rewrite Hml.
      + exists n. split_and!; [|done|done|lia]. unfold entry. simpl. rewrite lookup_insert_ne by done.
        by rewrite Hn; simpl; rewrite Hl.
    - simplify_eq. simpl. split_and!; [done..|].
      exists hx, hy. split_and!; [done|done|by rewrite lookup_insert|by unfold stack; simpl; rewrite lookup_insert|].
      intros b n Hn. exists n. split_and!; [done|done|done|lia].
  Qed.

  (** no self-assignment changes anything *)
  Lemma self_assign s t x s1 cs s2 : reachable s → allowed t → step s (LStart t (OAssign x x)) = Next s1 →
    run s1 (map (LRun t) cs) = Next s2 → stack s2 t = [] →
    vars s2 = vars s ∧ (∀ b, entry s2 b = entry s b) ∧ cont s2 = cont s ∧ lock s2 = lock s ∧
    log s2 = EvAssign x x :: log s.
  Proof.
    intros Hre Hal Hs1 Hrun Hst2.
    destruct (start_facts _ _ _ _ Hre Hal Hs1) as (HI&HI1&_).
    simpl in Hs1. destruct (stack s t) eqn:Hst; [|done]. simpl in Hs1.
    destruct (live s x) as [h|] eqn:Hx; [|done]. apply live_vars in Hx.
    destruct (var_entry P FS cfg eqv good HF t0 _ _ _ HI Hx) as (n&Hn&_).
    pose proof Hn as [Hh Hl]%entry_heap.
    assert (Hstep : ∃ s1', copy_handle FS cfg s h = Some s1' ∧
      s1 = add_log (EvAssign x x) (set_stack t [IRelease h] (set_vars (<[x:=Some h]> (vars s1')) s1')) ∧
      vars s1' = vars s ∧ cont s1' = cont s ∧ lock s1' = lock s ∧ log s1' = log s ∧
      heap s1' = (if trk cfg then <[h:=with_ref n (n_ref n + 1)]> (heap s) else heap s)).
    { unfold copy_handle in *. rewrite Hn in *. destruct (trk cfg); simplify_eq; eexists; done. }
    destruct Hstep as (s1'&_&E1&Ev&Ec&El&Eg&Eh).
    assert (Hv1 : vars s1 = vars s). { rewrite E1. simpl. rewrite Ev. by rewrite insert_id. }
    destruct cs as [|c cs].
    { simpl in Hrun. injection Hrun as <-. rewrite E1 in Hst2. unfold stack in Hst2. simpl in Hst2.
      by rewrite lookup_insert in Hst2. }
    assert (Hst1 : stack s1 t = [IRelease h]). { rewrite E1. unfold stack. simpl. by rewrite lookup_insert. }
    pose proof (i_ref _ _ _ _ _ (i_C _ _ _ _ _ _ _ _ HI)) as Href.
    assert (Hcn : 0 < cnt P FS s h) by (by eapply var_cnt).
    assert (Hs2 : ∃ s1a, step s1 (LRun t c) = Next s1a ∧ stack s1a t = [] ∧ vars s1a = vars s ∧ cont s1a = cont s ∧
      lock s1a = lock s ∧ log s1a = EvAssign x x :: log s ∧ ∀ b, entry s1a b = entry s b).
    { cbn [Core.step]. rewrite Hst1. simpl. destruct (trk cfg) eqn:Et.
      - assert (entry s1 h = Some (with_ref n (n_ref n + 1))) as ->.
        { rewrite E1. unfold entry. simpl. rewrite Eh, lookup_insert. simpl. by rewrite Hl. }
        simpl. rewrite decide_False by (rewrite (Href eq_refl h n Hn); lia).
        eexists. split; [done|]. split_and!.
        + by rewrite stack_set, decide_True.
        + done.
        + simpl. by rewrite E1.
        + simpl. by rewrite E1.
        + simpl. rewrite E1. simpl. by rewrite Eg.
        + intros b. unfold entry. simpl. rewrite E1. simpl. rewrite Eh, insert_insert.
          destruct (decide (b = h)) as [->|Hne]; [|by rewrite lookup_insert_ne].
          rewrite lookup_insert. simpl. rewrite Hl, Hh, Hl. f_equal. destruct n. unfold with_ref. simpl.
          f_equal. lia.
      - eexists. split; [done|]. split_and!.
        + by rewrite stack_set, decide_True.
        + done.
        + simpl. by rewrite E1.
        + simpl. by rewrite E1.
        + simpl. rewrite E1. simpl. by rewrite Eg.
        + intros b. unfold entry. simpl. rewrite E1. simpl. by rewrite Eh. }
    destruct Hs2 as (s1a&Hs1a&Hsta&F1&F2&F3&F4&F5). cbn [map Core.run] in Hrun. rewrite Hs1a in Hrun.
    assert (s2 = s1a) as ->; [|by split_and!].
    clear -Hrun Hsta. revert Hrun. induction cs as [|c' cs IH]; cbn [map Core.run Core.step]; [by intros [= ->]|].
    by rewrite Hsta.
  Qed.

  Lemma swap_step s t x y s' : reachable s → allowed t → step s (LStart t (OSwap x y)) = Next s' →
    value_of s' x = value_of s y ∧ value_of s' y = value_of s x ∧
    (∀ z, z ≠ x → z ≠ y → value_of s' z = value_of s z) ∧
    (∀ b, heap s' !! b = heap s !! b) ∧ cont s' = cont s ∧ (∀ t', stack s' t' = stack s t') ∧ lock s' = lock s ∧
    log s' = EvSwap x y :: log s.
  Proof.
    intros Hre Hal Hs. destruct (start_facts _ _ _ _ Hre Hal Hs) as (HI&HI'&(oe&Hsh&Hv&_)%start_eff).
    simpl in Hs. destruct (stack s t) eqn:Hst; [|done]. simpl in Hs. destruct (live s x) as [hx|] eqn:Hx; [|done].
    destruct (live s y) as [hy|] eqn:Hy; [|done]. apply live_vars in Hx, Hy.
    assert (Ev : vars s' = <[y:=Some hx]> (<[x:=Some hy]> (vars s))) by (by simplify_eq).
    split_and!; try (by simplify_eq).
    - apply value_of_shape; [done..|]. rewrite Ev. destruct (decide (x = y)) as [->|].
      + rewrite lookup_insert. congruence.
      + by rewrite lookup_insert_ne, lookup_insert.
    - apply value_of_shape; [done..|]. by rewrite Ev, lookup_insert.
    - intros z Hz1 Hz2. apply value_of_shape; [done..|]. by rewrite Ev, !lookup_insert_ne.
  Qed.

  Lemma destroy_step s t x s' : reachable s → allowed t → step s (LStart t (ODestroy x)) = Next s' →
    vars s' = delete x (vars s) ∧ ∀ z, z ≠ x → value_of s' z = value_of s z.
  Proof.
    intros Hre Hal Hs. destruct (start_facts _ _ _ _ Hre Hal Hs) as (HI&HI'&(oe&Hsh&Hv&_)%start_eff).
    simpl in Hs. destruct (stack s t) eqn:Hst; [|done]. simpl in Hs. destruct (live s x) as [hx|] eqn:Hx; [|done].
    assert (Ev : vars s' = delete x (vars s)) by (by simplify_eq). split; [done|].
    intros z Hz. apply value_of_shape; [done..|]. by rewrite Ev, lookup_delete_ne.
  Qed.

  (** what get() is recorded to return is the value of the object *)
  Lemma get_step s t x s' : reachable s → allowed t → step s (LStart t (OGet x)) = Next s' →
    ∃ h r, value_of s x = Some (h, r) ∧ log s' = EvGet x h r :: log s ∧ is_Some (p_val P r) ∧
      ∀ z, value_of s' z = value_of s z.
  Proof.
    intros Hre Hal Hs. pose proof (reach_inv P FS cfg eqv good Heq HP HF t0 s Hre) as HI.
    simpl in Hs. destruct (stack s t) eqn:Hst; [|done]. simpl in Hs. destruct (live s x) as [hx|] eqn:Hx; [|done].
    apply live_vars in Hx. destruct (entry s hx) as [n|] eqn:Hn; [|done].
    destruct (p_val P (n_rep n)) eqn:Hv; simplify_eq. exists hx, (n_rep n). split_and!; [|done|by eauto|done].
    unfold value_of. rewrite Hx. apply entry_heap in Hn as [-> _]. done.
  Qed.

  (** x = value: [flyweight tmp(args); x=tmp; ~tmp] (flyweight.hpp 232) *)
  Lemma assign_value s t x tmp p ys s1 cs1 s2 s3 cs2 s4 s5 cs3 s6 : reachable s → allowed t → x ≠ tmp →
    step s (LStart t (ONew tmp p ys)) = Next s1 → run s1 (map (LRun t) cs1) = Next s2 → stack s2 t = [] →
    match vars s2 !! tmp with
    | None => ∀ z, value_of s2 z = value_of s z
    | Some _ =>
        step s2 (LStart t (OAssign x tmp)) = Next s3 → run s3 (map (LRun t) cs2) = Next s4 → stack s4 t = [] →
        step s4 (LStart t (ODestroy tmp)) = Next s5 → run s5 (map (LRun t) cs3) = Next s6 → stack s6 t = [] →
        ∃ ks r k, Forall2 (λ y h, vars s !! y = Some (Some h)) ys ks ∧ p_make P p ks = Some r ∧
          key_of P FS s6 x = Some k ∧ eqv k (p_key P r) = true ∧
          ∀ z a, z ≠ x → value_of s z = Some a → value_of s6 z = Some a
    end.
  Proof.
    intros Hre Hal Hne Hs1 Hr1 Hst2.
    pose proof (reach_inv P FS cfg eqv good Heq HP HF t0 s Hre) as HI.
    assert (Hre1 : reachable s1) by (by eapply (reach_step _ _ _ _ s (LStart t (ONew tmp p ys)))).
    assert (Hsch : ∀ cs, sched_ok cfg t0 (map (LRun (A:=A) t) cs)).
    { intros cs El. apply Forall_forall. intros l (c&->&_)%elem_of_list_fmap. simpl. unfold CoreStep.allowed in Hal. auto. }
    assert (Hnt : ∀ z cs, Forall (λ l, touches z l = false) (map (LRun (A:=A) t) cs)).
    { intros z cs. apply Forall_forall. by intros l (c&->&_)%elem_of_list_fmap. }
    assert (Hre2 : reachable s2) by (eapply reach_run; [exact Hre1|apply Hsch|done]).
    pose proof (reach_inv P FS cfg eqv good Heq HP HF t0 s2 Hre2) as HI2.
    destruct (new_outcome P FS cfg eqv good Heq HP HF t0 s t tmp p ys s1 cs1 s2) as (_&_&ks&Hks&Hout); [done..|].
    assert (Htmp : vars s !! tmp = None).
    { simpl in Hs1. destruct (stack s t); [|done]. simpl in Hs1. by destruct (vars s !! tmp). }
    destruct Hout as [(Hv&Hsh&_&_)|(r&h&bs&Hr&Hv&_&Hco)].
    - rewrite Hv, Htmp. intros z. apply value_of_shape; [done..|by rewrite Hv].
    - rewrite Hv, lookup_insert. intros Hs3 Hr3 Hst4 Hs5 Hr5 Hst6.
      destruct (assign_step s2 t x tmp s3) as (Hx3&[[h' r'] Htv]&Hz3); [done..|].
      assert (Hre3 : reachable s3) by (by eapply (reach_step _ _ _ _ s2 (LStart t (OAssign x tmp)))).
      assert (Hre4 : reachable s4) by (eapply reach_run; [exact Hre3|apply Hsch|done]).
      assert (Hre5 : reachable s5) by (by eapply (reach_step _ _ _ _ s4 (LStart t (ODestroy tmp)))).
      destruct (destroy_step s4 t tmp s5) as [_ Hz5]; [done..|].
      assert (Hkeep : ∀ z a, z ≠ tmp → value_of s3 z = Some a → value_of s6 z = Some a).
      { intros z [a1 a2] Hz Hva. eapply (stability P FS cfg eqv good Heq HP HF t0 s5); [done|apply Hsch|apply Hnt|done|].
        rewrite Hz5 by done. by eapply (stability P FS cfg eqv good Heq HP HF t0 s3). }
      assert (Hx6 : value_of s6 x = Some (h', r')). { apply Hkeep; [done|]. by rewrite Hx3. }
      assert (Heqk : eqv (p_key P r') (p_key P r) = true).
      { assert (value_of s2 tmp = Some (h', r')) as Htv2 by done. apply (value_of_var P FS cfg eqv good HF t0) in Htv2; [|done].
        destruct Htv2 as (E&n&Hn&<-&_). rewrite Hv, lookup_insert in E. injection E as <-.
        destruct Hco as [(m&Hm&_&Hk&Hsh&_)|(Hnone&_&_&(m&Hm&Hmr)&_)].
        - destruct (shape_entry _ _ _ _ _ (Hsh h) Hm) as (m'&Hm'&E&_). assert (m' = n) as -> by congruence. by rewrite E.
        - assert (m = n) as -> by congruence. rewrite Hmr. unfold built.
          destruct (p_val P r) eqn:Epv; [by apply eqv_refl|]. by apply (po_build _ _ _ HP _ _ _ Hr). }
      exists ks, r, (p_key P r'). split_and!; [done|done| |done|].
      + unfold key_of. by rewrite Hx6.
      + intros z a Hzx Ha.
        assert (Hzt : z ≠ tmp). { intros ->. unfold value_of in Ha. by rewrite Htmp in Ha. }
        apply Hkeep; [done|]. rewrite Hz3, <- Ha by done.
        unfold value_of. rewrite Hv, lookup_insert_ne by done. destruct (vars s !! z) as [[hz|]|] eqn:Ez; [|done..].
        destruct (var_entry P FS cfg eqv good HF t0 _ _ _ HI Ez) as (n&Hn&_).
        assert (shape FS s2 hz = shape FS s hz) as E.
        { destruct Hco as [(m&_&_&_&Hsh&_)|(Hnone&_&Hsh&_)]; apply Hsh. intros ->. congruence. }
        destruct (shape_entry _ _ _ _ _ E Hn) as (m&Hm&Hmr&_).
        apply entry_heap in Hn as [-> _]. apply entry_heap in Hm as [-> _]. by rewrite Hmr.
  Qed.
End Ops.
