(** Histories of constructions, reads, exceptions and uninterrupted creations
    for the machine of [Concurrent.v]. *)
From Verif Require Export ConcurrentLive.
From Verif Require CoreSpec.
Notation newest := CoreSpec.newest.

Section More.
  Context {K A R V : Type}.
  Context (P : Core.policy K A R V) (eqv : K → K → bool) (good : R → Prop).
  Context (Heq : equivalence eqv) (HP : policy_ok eqv good P).
  Notation state := (Concurrent.state (K:=K) (A:=A) (R:=R)).
  Notation instr := (Concurrent.instr (K:=K) (A:=A) (R:=R)).
  Notation label := (Concurrent.label (A:=A)).
  Notation node := (Concurrent.node (R:=R)).
  Notation event := (Core.event (K:=K) (R:=R)).
  Notation Inv := (ConcurrentInv.Inv P eqv good).
  Notation cnt := (ConcurrentInv.cnt P).
  Notation step := (Concurrent.step P eqv).
  Notation run := (Concurrent.run P eqv).
  Notation exec := (Concurrent.exec P eqv).
  Notation reachable := (ConcurrentSpec.reachable P eqv).
  Notation step_next := (ConcurrentProofs.step_next P eqv good Heq HP).
  Implicit Types (s : state) (n m : node) (a b h : addr) (t : tid) (i : instr) (l : label) (rest : list instr).

  Lemma log_self (e : event) (lg : list event) : lg ≠ e :: lg.
  Proof. intros H. apply (f_equal length) in H. simpl in H. lia. Qed.

  (** ** what is logged *)
  Definition told s s' (e : event) : Prop :=
    match e with
    | EvErase h k => ∃ n, ents s !! h = Some n ∧ k = p_key P (n_rep n) ∧ ents s' = delete h (ents s)
    | EvBuild h k => is_Some (ents s !! h) ∧ ∃ t x ks rest, stack s' t = IAddRef x h ks k :: rest
    | EvGet x h r => vars s !! x = Some (Some h) ∧ (∃ n, ents s !! h = Some n ∧ n_rep n = r ∧ is_Some (p_val P r)) ∧ vars s' = vars s ∧ ents s' = ents s
    | EvThrow x => (∃ t rest, stack s t = IAbort x :: rest) ∧ vars s' = delete x (vars s) ∧ ents s' = ents s
    | EvNew x k => ∃ t h rest, stack s t = IBind x h k :: rest ∧ vars s' = <[x:=Some h]> (vars s)
    | _ => True
    end.
  Lemma step_log s l s' : step s l = Next s' →
    (log s' = log s ∧ ∀ a, is_Some (ents s !! a) → is_Some (ents s' !! a)) ∨
    ∃ e, log s' = e :: log s ∧ told s s' e ∧ ((∀ h k, e ≠ EvErase h k) → ∀ a, is_Some (ents s !! a) → is_Some (ents s' !! a)).
  Proof.
    intros Hs.
    assert (Hput : ∀ (E : gmap addr node) h n a, is_Some (E !! a) → is_Some (<[h:=n]> E !! a)).
    { intros E h n a Ha. destruct (decide (a = h)) as [->|]; [rewrite lookup_insert; eauto|by rewrite lookup_insert_ne]. }
    destruct l as [t op|t thr| |h|]; simpl in Hs.
    - case_decide; [done|]. destruct (stack s t); [|done].
      destruct op; simpl in Hs; unfold add_ref in Hs; repeat case_match; simplify_eq; simpl;
        first [left; split; [done|]; intros a Ha; first [done|by apply Hput]
              |right; eexists; split; [done|]; split; [done|]; intros _ a Ha; first [done|by apply Hput]].
    - destruct (stack s t) as [|i rest] eqn:E; [done|].
      destruct i as [x p [|y ys] got|x p r|x h p ks k|x h ks k|x h ks k|h|x h k|x|x h|x y hx hy|x y hx hy|x y hx hy|h [|j]|h|h|h];
        cbn [Concurrent.exec] in Hs; unfold add_ref, release in Hs; repeat case_match; simplify_eq; simpl;
        try (left; split; [done|]; intros a Ha; first [done|by apply Hput]).
      + right. eexists. split; [done|]. split; [|intros _ a Ha; by apply Hput]. split; [eauto|].
        exists t, x, ks, rest. unfold stack. simpl. by rewrite lookup_insert.
      + right. eexists. split; [done|]. split; [|done]. exists t, h, rest. done.
      + right. eexists. split; [done|]. split; [|done]. split_and!; [eauto|done|done].
      + right. eexists. split; [done|]. split; [|done]. simpl.
        assert (vars s !! x = Some (Some h)) as Hx. { clear -e. unfold live in e. destruct (vars s !! x) as [[]|]; congruence. }
        split_and!; [done| |done|done]. eexists. split_and!; [eassumption|done|eauto].
      + right. eexists. split; [done|]. done.
      + right. eexists. split; [done|]. split; [|naive_solver]. eexists. done.
    - repeat case_match; simplify_eq. by left.
    - repeat case_match; simplify_eq; left; split; [done|]. intros a Ha. by apply Hput.
    - repeat case_match; simplify_eq. by left.
  Qed.

  (** ** one construction per life of an entry *)
  Definition life_ok s : Prop :=
    (∀ k, newest eqv k (log s) = Some true →
       ∃ a n, ents s !! a = Some n ∧ is_Some (p_val P (n_rep n)) ∧ eqv (p_key P (n_rep n)) k = true) ∧
    (∀ post pre h k, log s = post ++ EvBuild h k :: pre → newest eqv k pre ≠ Some true).

  Lemma life_step s l s' : Inv s → life_ok s → step s l = Next s' → life_ok s'.
  Proof.
    intros HI [HN HB] Hs. pose proof (step_ev P eqv good HP s l s' HI Hs) as (_&_&Hev).
    pose proof (step_next s l s' HI Hs) as HI'.
    assert (Hkeep : ∀ k a n, ents s !! a = Some n → is_Some (p_val P (n_rep n)) → eqv (p_key P (n_rep n)) k = true → is_Some (ents s' !! a) →
      ∃ a n, ents s' !! a = Some n ∧ is_Some (p_val P (n_rep n)) ∧ eqv (p_key P (n_rep n)) k = true).
    { intros k a n Hn Hv Hk [m Hm]. destruct (Hev a n Hn) as [(n'&Hn'&[Hr|(Hv'&_)])|(_&?&_)]; [|destruct Hv; congruence|congruence].
      exists a, n'. by rewrite Hr. }
    assert (Hno : ∀ e, log s' = e :: log s → (∀ h k, e ≠ EvBuild h k) → ∀ post pre h k, log s' = post ++ EvBuild h k :: pre → newest eqv k pre ≠ Some true).
    { intros e -> He post pre h k E. destruct post; simplify_eq/=; [by edestruct He|]. by eapply HB. }
    destruct (step_log s l s' Hs) as [[Hlog Hst]|(e&Hlog&Ht&Hst)].
    { split; [|by rewrite Hlog]. intros k Hk. rewrite Hlog in Hk. destruct (HN k Hk) as (a&n&Hn&Hv&Hek). eapply Hkeep; eauto. }
    assert (Hother : (∀ h k, e ≠ EvBuild h k) → (∀ h k, e ≠ EvErase h k) → life_ok s').
    { intros H1 H2. split; [|by apply (Hno e)]. intros k Hk. rewrite Hlog in Hk.
      assert (newest eqv k (log s) = Some true) as Hk' by (destruct e; simpl in Hk; try done; naive_solver).
      destruct (HN k Hk') as (a&n&Hn&Hv&Hek). eapply Hkeep; eauto. }
    destruct e as [| | | | | | |h k'|h k'].
    1-7: apply Hother; congruence.
    - destruct (build_step P eqv good Heq s l s' h k' HI Hs Hlog) as (t&n&_&Hn&_&_&Hmiss).
      assert (Hnone : ∀ k, eqv k' k = true → newest eqv k (log s) ≠ Some true).
      { intros k E Hk. destruct (HN k Hk) as (b&m&Hb&Hv&Hek). pose proof (Hmiss b m Hb Hv) as Hf.
        rewrite (eqv_trans _ Heq _ _ _ Hek (eqv_sym _ Heq _ _ E)) in Hf. done. }
      split.
      + intros k Hk. rewrite Hlog in Hk. simpl in Hk. destruct (eqv k' k) eqn:E.
        * destruct Ht as [_ (t'&x&ks&rest&Hst')]. assert (Hin : IAddRef x h ks k' ∈ stack s' t') by (rewrite Hst'; left).
          pose proof (i_ok _ _ _ _ HI' t' _ Hin) as [(n1&Hn1&Hk1) (n2&Hn2&Hv2)]. rewrite Hn1 in Hn2. injection Hn2 as <-.
          exists h, n1. split_and!; [done|done|]. exact (eqv_trans _ Heq _ _ _ Hk1 E).
        * destruct (HN k Hk) as (b&m&Hb&Hv&Hek). eapply Hkeep; eauto.
      + rewrite Hlog. intros post pre h0 k E. destruct post; simplify_eq/=; [|by eapply HB]. apply Hnone, Heq.
    - destruct Ht as (n&Hn&->&He). split; [|apply (Hno _ Hlog); congruence]. intros k Hk. rewrite Hlog in Hk. simpl in Hk.
      destruct (eqv (p_key P (n_rep n)) k) eqn:E; [done|]. destruct (HN k Hk) as (b&m&Hb&Hv&Hek). eapply Hkeep; eauto.
      rewrite He, lookup_delete_ne; [eauto|]. intros ->. congruence.
  Qed.
  Lemma life_run ls s s' : Inv s → life_ok s → run s ls = Next s' → life_ok s'.
  Proof.
    revert s. induction ls as [|l ls IH]; intros s HI HL Hr; simpl in *; [by simplify_eq|].
    destruct (step s l) as [s1| |] eqn:E; [|by apply (IH s)|done]. eapply (IH s1); [by eapply step_next|by eapply life_step|done].
  Qed.
  Lemma life s : reachable s → life_ok s.
  Proof.
    intros [ls Hr]. eapply life_run; [|split|exact Hr]; [apply (init_inv P eqv good)|done|]. intros post pre h k E. by destruct post.
  Qed.

  Lemma get_step s l s' x h r : step s l = Next s' → log s' = EvGet x h r :: log s →
    value_of s x = Some (h, r) ∧ is_Some (p_val P r) ∧ vars s' = vars s ∧ ents s' = ents s.
  Proof.
    intros Hs Hl. destruct (step_log s l s' Hs) as [[E _]|(e&E&Ht&_)]; rewrite E in Hl; [by apply log_self in Hl|].
    injection Hl as ->. destruct Ht as (Hx&(n&Hn&<-&Hv)&H1&H2). unfold value_of. by rewrite Hx, Hn.
  Qed.
  Lemma throw_step s l s' x : Inv s → step s l = Next s' → log s' = EvThrow x :: log s →
    vars s !! x = Some None ∧ vars s' = delete x (vars s) ∧ ents s' = ents s.
  Proof.
    intros HI Hs Hl. destruct (step_log s l s' Hs) as [[E _]|(e&E&Ht&_)]; rewrite E in Hl; [by apply log_self in Hl|].
    injection Hl as ->. destruct Ht as ((t&rest&Hst)&H1&H2). split; [|done].
    eapply (making_goal P eqv good s t x (IAbort x)); [done|rewrite Hst; left|]. simpl. rewrite at_eq. lia.
  Qed.

  (** ** counts *)
  Lemma count_referenced s a n : Inv s → ents s !! a = Some n → (n_cnt n = 0%Z ↔ ¬ referenced P s a) ∧ ((0 < n_cnt n)%Z ↔ referenced P s a).
  Proof.
    intros HI Hn. destruct (i_cnt _ _ _ _ HI a n Hn) as [-> _]. rewrite referenced_cnt. lia.
  Qed.
  Lemma residue s a n : Inv s → ents s !! a = Some n → p_val P (n_rep n) = None → ¬ referenced P s a ∧ n_cnt n = 0%Z.
  Proof.
    intros HI Hn Hv. destruct (i_cnt _ _ _ _ HI a n Hn) as [Hc Hz]. specialize (Hz Hv). rewrite Hc, Hz, referenced_cnt. split; [lia|done].
  Qed.
  Lemma referenced_there s a : Inv s → referenced P s a → ∃ n, ents s !! a = Some n ∧ (0 < n_cnt n)%Z ∧ is_Some (p_val P (n_rep n)).
  Proof.
    intros HI Hr. pose proof Hr as Hc. rewrite referenced_cnt in Hc. destruct (present P eqv good s a HI Hc) as (n&Hn&Hv).
    exists n. split_and!; [done| |done]. by apply (count_referenced s a n).
  Qed.

  Lemma msum_list {X} (f : X → nat) (m : gmap nat X) : msum f m = lsum (λ p : nat * X, f p.2) (map_to_list m).
  Proof.
    unfold msum, map_fold, lsum. simpl. induction (map_to_list m) as [|[k x] xs IH]; [done|]. simpl. by rewrite IH.
  Qed.
  Lemma occ_filter a (xs : list nat) : occ a xs = length (filter (λ b, b = a) xs).
  Proof.
    induction xs as [|x xs IH]; [done|]. rewrite occ_cons, IH, filter_cons. destruct (decide (a = x)) as [->|Hne].
    - by rewrite decide_True.
    - rewrite decide_False by congruence. done.
  Qed.
  Lemma count_exact s a n : Inv s → ents s !! a = Some n → (∀ t i, i ∈ stack s t → ¬ holds P a i) → n_cnt n = Z.of_nat (objects P s a).
  Proof.
    intros HI Hn Hno. destruct (i_cnt _ _ _ _ HI a n Hn) as [-> _]. f_equal. unfold ConcurrentInv.cnt, objects.
    assert (tsum (own P a) s = 0) as ->.
    { apply msum_zero. intros t k Hk. destruct (lsum (own P a) k) eqn:E; [done|].
      assert (∃ i, i ∈ k ∧ 0 < own P a i) as (i&Hi&Ho).
      { clear -E. assert (0 < lsum (own P a) k) as Hp by lia. clear E. induction k as [|i k IH]; [by rewrite lsum_nil in Hp; lia|].
        rewrite lsum_cons in Hp. destruct (own P a i) eqn:Ei.
        - destruct IH as (j&Hj&?); [lia|]. exists j. split; [by right|done].
        - exists i. split; [left|lia]. }
      destruct (Hno t i); [|by apply holds_own]. unfold stack. by rewrite Hk. }
    rewrite Nat.add_0_r. f_equal.
    - unfold vsum. rewrite msum_list. induction (map_to_list (vars s)) as [|[x o] xs IH]; [done|]. rewrite lsum_cons, IH, filter_cons. cbn [snd].
      destruct o as [h|]; cbn [vcount]; [|by rewrite decide_False]. unfold at_. destruct (decide (a = h)) as [->|].
      + by rewrite decide_True.
      + by rewrite decide_False by congruence.
    - unfold hsum. rewrite msum_list, <- occ_filter. induction (map_to_list (ents s)) as [|[x m] xs IH]; [done|].
      rewrite lsum_cons, IH. simpl. by rewrite occ_app.
  Qed.
End More.
