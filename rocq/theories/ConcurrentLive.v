(** Progress, construction outcomes and construction counts for the machine of
    [Concurrent.v]. *)
From Verif Require Export ConcurrentGc.

Lemma occ_length (l k : list nat) : (∀ a, occ a l = occ a k) → length l = length k.
Proof.
  revert k. induction l as [|x l IH]; intros k H.
  - destruct k as [|y k]; [done|]. specialize (H y). rewrite occ_cons, decide_True in H by done. rewrite occ_nil in H. lia.
  - assert (x ∈ k) as (k1&k2&->)%elem_of_list_split.
    { apply occ_pos. rewrite <- H, occ_cons, decide_True by done. lia. }
    rewrite app_length. simpl. rewrite (IH (k1 ++ k2)), app_length; [lia|]. intros a. specialize (H a).
    rewrite occ_app, !occ_cons in H. rewrite occ_app. lia.
Qed.

Section Live.
  Context {K A R V : Type}.
  Context (P : Core.policy K A R V) (eqv : K → K → bool) (good : R → Prop).
  Context (Heq : equivalence eqv) (HP : policy_ok eqv good P).
  Notation state := (state (K:=K) (A:=A) (R:=R)).
  Notation instr := (instr (K:=K) (A:=A) (R:=R)).
  Notation label := (label (A:=A)).
  Notation node := (node (R:=R)).
  Notation Inv := (Inv P eqv good).
  Notation cnt := (cnt P).
  Notation step := (step P eqv).
  Notation run := (run P eqv).
  Notation exec := (exec P eqv).
  Notation referenced := (referenced P).
  Notation own_steps := (own_steps P eqv).
  Notation step_next := (step_next P eqv good Heq HP).
  Implicit Types (s : state) (n m : node) (a b h : addr) (t : tid) (i : instr) (l : label) (rest : list instr).

  (** ** exclusive access is held by the instruction a thread is at *)
  Definition noacc i : Prop := ∀ a, acc a i = 0.
  Definition heads s : Prop := ∀ t, Forall noacc (tail (stack s t)).

  Lemma noacc_release (ks : list addr) : Forall noacc (map IRelease ks).
  Proof. apply Forall_forall. by intros i (b&->&_)%elem_of_list_fmap. Qed.

  Lemma exec_stack s t i rest thr s' : exec s t i rest thr = Next s' →
    ∃ new, stack s' t = new ++ rest ∧ Forall noacc (tail new) ∧ ∀ t', t' ≠ t → stack s' t' = stack s t'.
  Proof.
    intros He. destruct (exec_goal P eqv s t i rest thr s' He) as [_ Hoth].
    assert (Hs : ∀ s1 new, stack (set_stack t new s1) t = new) by (intros; by rewrite stack_set, decide_True).
    assert (Hl : ∀ s1 new e, stack (add_log e (set_stack t new s1)) t = new).
    { intros. unfold stack. simpl. by rewrite lookup_insert. }
    assert (Hc : ∀ s1 new e, stack (set_clock e (set_stack t new s1)) t = new).
    { intros. unfold stack. simpl. by rewrite lookup_insert. }
    assert (Hrel : ∀ (ks : list addr) (j : instr), noacc j → Forall noacc (tail (map IRelease ks ++ [j]))).
    { intros ks j Hj. destruct ks as [|b ks]; simpl; [constructor|]. apply Forall_app. split; [apply noacc_release|by constructor]. }
    assert (Hsplit : ∀ (l1 : list instr) j, l1 ++ j :: rest = (l1 ++ [j]) ++ rest) by (intros; by rewrite <- app_assoc).
    destruct i as [x p [|y ys] got|x p r|x h p ks k|x h ks k|x h ks k|h|x h k|x|x h|x y hx hy|x y hx hy|x y hx hy|h [|j]|h|h|h];
      cbn [Concurrent.exec] in He; unfold add_ref, release in He; repeat case_match; simplify_eq; rewrite ?Hs, ?Hl, ?Hc;
      try (exists []; split_and!; [done|by constructor|done]);
      try (eexists [_]; split_and!; [done|by constructor|done]);
      try (eexists; split_and!; [apply Hsplit|by apply Hrel|done]);
      try (eexists [_; _]; split_and!; [done|by repeat constructor|done]);
      try (eexists [_; _; _]; split_and!; [done|by repeat constructor|done]).
    eexists. split_and!; [done| |done]. destruct (p_kids P (n_rep n)); simpl; [constructor|]. apply noacc_release.
  Qed.

  Lemma heads_step s l s' : heads s → step s l = Next s' → heads s'.
  Proof.
    intros Hh Hs. destruct l as [t op|t thr| |h|]; simpl in Hs.
    - case_decide; [done|]. destruct (stack s t) eqn:E; [|done]. intros t'.
      destruct (decide (t' = t)) as [->|Hne]; [|rewrite (start_stack s t op s' E Hs) by done; apply Hh].
      assert (Hst : ∀ s1 new, stack (set_stack t new s1) t = new) by (intros; by rewrite stack_set, decide_True).
      assert (Hl : ∀ s1 new e, stack (add_log e (set_stack t new s1)) t = new).
      { intros. unfold stack. simpl. by rewrite lookup_insert. }
      destruct op; simpl in Hs; unfold add_ref in Hs; repeat case_match; simplify_eq; rewrite ?Hst, ?Hl; simpl; repeat constructor.
    - destruct (stack s t) as [|i rest] eqn:E; [done|]. destruct (exec_stack s t i rest thr s' Hs) as (new&H1&H2&H3). intros t'.
      destruct (decide (t' = t)) as [->|Hne]; [|rewrite H3 by done; apply Hh]. rewrite H1. specialize (Hh t). rewrite E in Hh. simpl in Hh.
      destruct new as [|j new]; simpl in *; [destruct rest; [constructor|by inversion Hh]|]. by apply Forall_app.
    - repeat case_match; simplify_eq. done.
    - destruct (todo s) as [X|] eqn:Et; [|done]. destruct (stack s gc_tid) eqn:Eg; [|done].
      destruct (ents s !! h) as [[r c [?|]]|] eqn:Eh; simplify_eq. intros t. rewrite stack_set. case_decide; [repeat constructor|]. apply Hh.
    - repeat case_match; simplify_eq. intros t. apply Hh.
  Qed.
  Lemma heads_run ls s s' : heads s → run s ls = Next s' → heads s'.
  Proof.
    revert s. induction ls as [|l ls IH]; intros s Hh Hr; simpl in *; [by simplify_eq|].
    destruct (step s l) as [s1| |] eqn:E; [|by eapply IH|done]. eapply IH; [by eapply heads_step|done].
  Qed.
  Lemma heads_reach s : reachable P eqv s → heads s.
  Proof. intros [ls Hr]. eapply heads_run; [|done]. intros t. constructor. Qed.

  Lemma owner_moves s h n t thr : Inv s → heads s → ents s !! h = Some n → n_own n = Some t → ∃ s', step s (LRun t thr) = Next s'.
  Proof.
    intros HI Hh Hn Ho. pose proof (i_acc _ _ _ _ HI h t) as Hac. rewrite Hn, Ho in Hac. unfold has in Hac. rewrite decide_True in Hac by done.
    pose proof (step_inv P eqv good Heq HP s (LRun t thr) HI) as Hok.
    specialize (Hh t). simpl in *. destruct (stack s t) as [|i rest]; [done|]. simpl in Hh.
    assert (lsum (acc h) rest = 0) as Hz.
    { clear -Hh. induction Hh as [|j k Hj _ IH]; [done|]. rewrite lsum_cons, Hj, IH. done. }
    rewrite lsum_cons, Hz in Hac. destruct i; simpl in Hac; try lia;
      unfold at_ in Hac; case_decide; try lia; subst; simpl in *; unfold add_ref in *; repeat case_match; eauto; done.
  Qed.

  Lemma progress s t thr : Inv s → heads s → stack s t ≠ [] → ¬ illegal s t →
    (∃ s', step s (LRun t thr) = Next s') ∨
    ∃ t', t' ≠ t ∧ (∃ a n, ents s !! a = Some n ∧ n_own n = Some t') ∧ ∀ thr', ∃ s', step s (LRun t' thr') = Next s'.
  Proof.
    intros HI Hh Hne Hil. pose proof (step_inv P eqv good Heq HP s (LRun t thr) HI) as Hok. unfold illegal in Hil.
    pose proof (Hh t) as Hht.
    pose proof (λ a n t', owner_moves s a n t') as Hom. simpl in *. destruct (stack s t) as [|i rest] eqn:E; [done|].
    destruct i as [x p [|y ys] got|x p r|x h p ks k|x h ks k|x h ks k|h|x h k|x|x h|x y hx hy|x y hx hy|x y hx hy|h [|j]|h|h|h];
      cbn [Concurrent.exec okres] in *; unfold add_ref, release in *.
    3: { destruct thr; [left; eauto|]. destruct (find P eqv s (p_key P r)) as [h|] eqn:Ef; [|left; eauto].
         apply find_some in Ef as (n&Hn&Hk). rewrite Hn. destruct n as [r' c [t'|]]; [right|left; eauto]. exists t'. split_and!.
         - intros ->. pose proof (i_acc _ _ _ _ HI h t) as Hac. rewrite Hn, E in Hac. unfold has in Hac. simpl in Hac.
           rewrite decide_True in Hac by done. rewrite lsum_cons in Hac. simpl in Hac, Hht. clear -Hht Hac.
           assert (lsum (acc h) rest = 0); [|lia]. clear Hac. induction Hht as [|j k Hj _ IH]; [done|]. rewrite lsum_cons, Hj, IH. done.
         - by exists h, (Node r' c (Some t')).
         - intros thr'. by eapply (Hom h (Node r' c (Some t')) t'). }
    all: left; repeat case_match; eauto; try done; exfalso; auto.
  Qed.

  (** the garbage collector waits only for threads that can move *)
  Lemma look_progress s X : Inv s → heads s → todo s = Some X → stack s gc_tid = [] →
    (∃ s', step s LEnd = Next s') ∨ (∃ h s', h ∈ X ∧ step s (LLook h) = Next s') ∨
    ∃ t', t' ≠ gc_tid ∧ ∀ thr', ∃ s', step s (LRun t' thr') = Next s'.
  Proof.
    intros HI Hh HX Hst. destruct (decide (X = ∅)) as [->|Hne].
    - left. simpl. rewrite HX, Hst. rewrite decide_True by done. eauto.
    - right. apply set_choose_L in Hne as [h Hin]. pose proof (i_todo _ _ _ _ HI) as Htd. rewrite HX in Htd. destruct Htd as [Hdom _].
      pose proof (Hdom h Hin) as [n Hn]%elem_of_dom. destruct (n_own n) as [t|] eqn:Eo.
      + right. exists t. split; [|intros thr'; by eapply (owner_moves s h n)]. intros ->.
        pose proof (i_acc _ _ _ _ HI h gc_tid) as Hac. rewrite Hn, Eo, Hst, lsum_nil in Hac. unfold has in Hac. rewrite decide_True in Hac by done. done.
      + left. destruct n as [r c o]. simpl in Eo. subst o. exists h. eexists. split; [done|]. simpl. by rewrite HX, Hst, Hn.
  Qed.

  (** ** a call takes a bounded number of steps of its own *)
  Definition weight (i : instr) : nat :=
    match i with
    | IMake _ _ ys got => 2 * length ys + length got + 8
    | IEnter _ _ r => length (p_kids P r) + 7
    | IVisit _ _ _ ks _ => length ks + 6
    | IAddRef _ _ ks _ => length ks + 5
    | ILeave _ _ ks _ => length ks + 4
    | ISwap1 _ _ _ _ => 6
    | ISwap2 _ _ _ _ => 4
    | IDup _ j => 2 * j + 1
    | _ => 1
    end.
  Lemma weight_release ks : lsum weight (map IRelease ks) = length ks.
  Proof. induction ks; [done|]. simpl. rewrite lsum_cons, IHks. done. Qed.

  Lemma exec_weight s t i rest thr s' : Inv s → t ≠ gc_tid → stack s t = i :: rest → exec s t i rest thr = Next s' →
    S (lsum weight (stack s' t)) ≤ lsum weight (stack s t).
  Proof.
    intros HI Ht Hst He. assert (Htop : i ∈ stack s t) by (rewrite Hst; left).
    assert (Hs : ∀ s1 new, stack (set_stack t new s1) t = new) by (intros; by rewrite stack_set, decide_True).
    assert (Hl : ∀ s1 new e, stack (add_log e (set_stack t new s1)) t = new).
    { intros. unfold stack. simpl. by rewrite lookup_insert. }
    assert (Hc : ∀ s1 new e, stack (set_clock e (set_stack t new s1)) t = new).
    { intros. unfold stack. simpl. by rewrite lookup_insert. }
    destruct (i_gc _ _ _ _ HI t i Htop) as [Hg _].
    destruct i as [x p [|y ys] got|x p r|x h p ks k|x h ks k|x h ks k|h|x h k|x|x h|x y hx hy|x y hx hy|x y hx hy|h [|j]|h|h|h];
      try (by destruct Ht; apply Hg); cbn [Concurrent.exec] in He; unfold add_ref, release in He; repeat case_match; simplify_eq;
      rewrite Hst, ?Hs, ?Hl, ?Hc, ?lsum_app, ?lsum_cons, ?weight_release; simpl; try lia.
    - destruct (po_make _ _ _ HP _ _ _ H) as [_ Ho]. rewrite (occ_length _ _ Ho). lia.
    - rewrite app_length. simpl. lia.
  Qed.

  Lemma bounded_call t ls s s' : Inv s → t ≠ gc_tid → Forall (λ l, ¬ starts t l) ls → run s ls = Next s' →
    own_steps t s ls + lsum weight (stack s' t) ≤ lsum weight (stack s t).
  Proof.
    revert s. induction ls as [|l ls IH]; intros s HI Ht Hl Hr; simpl in *; [by simplify_eq|]. inversion Hl; subst.
    destruct (step s l) as [s1| |] eqn:E; [|by apply IH|done].
    specialize (IH s1 (step_next s l s1 HI E) Ht ltac:(done) Hr).
    assert ((match l with LRun t' _ => if decide (t' = t) then 1 else 0 | _ => 0 end) + lsum weight (stack s1 t) ≤ lsum weight (stack s t)); [|lia].
    destruct l as [t' op|t' thr| |h|]; simpl in *.
    - case_decide; [done|]. destruct (stack s t') eqn:Et; [|done]. by rewrite (start_stack s t' op s1 Et E) by congruence.
    - destruct (stack s t') as [|i rest] eqn:Et; [done|]. case_decide; [subst t'|].
      + pose proof (exec_weight s t i rest thr s1 HI Ht Et E). lia.
      + destruct (exec_goal P eqv s t' i rest thr s1 E) as [_ Hoth]. by rewrite Hoth by congruence.
    - repeat case_match; simplify_eq. done.
    - destruct (todo s); [|done]. destruct (stack s gc_tid); [|done]. destruct (ents s !! h) as [[r c [?|]]|]; simplify_eq.
      rewrite stack_set, decide_False by done. done.
    - repeat case_match; simplify_eq. done.
  Qed.

  (** ** constructions of values *)
  Lemma build_step s l s' h k : Inv s → step s l = Next s' → log s' = EvBuild h k :: log s →
    ∃ t n, l = LRun t false ∧ ents s !! h = Some n ∧ p_val P (n_rep n) = None ∧ eqv (p_key P (n_rep n)) k = true ∧
      ∀ b m, ents s !! b = Some m → is_Some (p_val P (n_rep m)) → eqv (p_key P (n_rep m)) k = false.
  Proof.
    intros HI Hs Hlog.
    assert (Hself : ∀ (e : Core.event (K:=K) (R:=R)) (lg : list Core.event), lg ≠ e :: lg).
    { intros e lg H. apply (f_equal length) in H. simpl in H. lia. }
    destruct l as [t op|t thr| |a|]; simpl in Hs.
    - exfalso. case_decide; [done|]. destruct (stack s t); [|done]. destruct op; simpl in Hs; unfold add_ref in Hs; repeat case_match; simplify_eq/=; by eapply Hself.
    - destruct (stack s t) as [|i rest] eqn:E; [done|]. assert (Htop : i ∈ stack s t) by (rewrite E; left).
      pose proof (i_ok _ _ _ _ HI t i Htop) as Hok.
      destruct i as [x p [|y ys] got|x p r|x h' p ks k'|x h' ks k'|x h' ks k'|h'|x h' k'|x|x h'|x y hx hy|x y hx hy|x y hx hy|h' [|j]|h'|h'|h'];
        cbn [Concurrent.exec] in Hs; unfold add_ref, release in Hs; repeat case_match; simplify_eq/=; try (exfalso; by eapply Hself).
      destruct Hok as [_ (m&Hm&Hk)].
      assert (p_val P (n_rep m) = None) as Hnone by congruence. exists t, m. split_and!; try done.
      intros b m' Hb Hv. destruct (eqv (p_key P (n_rep m')) k) eqn:Ek; [|done].
      assert (b = h) as ->; [|destruct Hv; congruence]. eapply (i_uniq _ _ _ _ HI); [exact Hb|exact Hm|].
      exact (eqv_trans _ Heq _ _ _ Ek (eqv_sym _ Heq _ _ Hk)).
    - exfalso. repeat case_match; simplify_eq/=. by eapply Hself.
    - exfalso. repeat case_match; simplify_eq/=; by eapply Hself.
    - exfalso. repeat case_match; simplify_eq/=; by eapply Hself.
  Qed.

  (** a value appears in an entry only by a construction *)
  Lemma value_appears s l s' a n n' : Inv s → step s l = Next s' → ents s !! a = Some n → ents s' !! a = Some n' →
    p_val P (n_rep n) = None → is_Some (p_val P (n_rep n')) → ∃ k, log s' = EvBuild a k :: log s.
  Proof.
    intros HI Hs Hn Hn' Hv Hv'. 
    assert (Hput : ∀ h m m', ents s !! h = Some m → n_rep m' = n_rep m → <[h:=m']> (ents s) !! a = Some n' → False).
    { intros h m m' Hm Hr [[-> ->]|[_ ?]]%lookup_insert_Some; simplify_eq; destruct Hv'; congruence. }
    assert (Hsame : ents s !! a = Some n' → False) by (intros; simplify_eq; destruct Hv'; congruence).
    destruct l as [t op|t thr| |h|]; simpl in Hs.
    - exfalso. case_decide; [done|]. destruct (stack s t); [|done]. destruct op; simpl in Hs; unfold add_ref in Hs; repeat case_match; simplify_eq; simpl in Hn';
        first [by apply Hsame|(eapply Hput; [ | |exact Hn']; [eassumption|done])].
    - destruct (stack s t) as [|i rest] eqn:E; [done|].
      destruct i as [x p [|y ys] got|x p r|x h' p ks k'|x h' ks k'|x h' ks k'|h'|x h' k'|x|x h'|x y hx hy|x y hx hy|x y hx hy|h' [|j]|h'|h'|h'];
        cbn [Concurrent.exec] in Hs; unfold add_ref, release in Hs; repeat case_match; simplify_eq; simpl in Hn';
        try (exfalso; first [by apply Hsame|(eapply Hput; [ | |exact Hn']; [eassumption|done])]).
      + exfalso. apply lookup_insert_Some in Hn' as [[<- _]|[_ ?]]; [|by apply Hsame]. pose proof (i_low _ _ _ _ HI _ _ Hn). lia.
      + apply lookup_insert_Some in Hn' as [[<- _]|[_ ?]]; [|exfalso; by apply Hsame]. simpl. eauto.
      + exfalso. apply lookup_delete_Some in Hn' as [_ ?]. by apply Hsame.
    - exfalso. repeat case_match; simplify_eq; by apply Hsame.
    - exfalso. repeat case_match; simplify_eq; simpl in Hn'; (eapply Hput; [ | |exact Hn']; [eassumption|done]).
    - exfalso. repeat case_match; simplify_eq; by apply Hsame.
  Qed.
End Live.
