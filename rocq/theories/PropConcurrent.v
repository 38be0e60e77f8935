(** Properties of concurrent_factory with no_tracking and no_locking
    (C27, C28, C30-C32), for every value policy obeying the laws of
    [ConcurrentInv.policy_ok] (see [ConcurrentPolicies.v] for the three of the
    library), every number of threads and every schedule. *)
From Verif Require Import ConcurrentPolicies.

Section Thms.
  Context {K A R V : Type}.
  Context (P : Core.policy K A R V) (eqv : K → K → bool) (good : R → Prop).
  Context (Heq : equivalence eqv) (HP : policy_ok eqv good P).
  Notation state := (Concurrent.state (K:=K) (A:=A) (R:=R)).
  Notation label := (Concurrent.label (A:=A)).
  Notation node := (Concurrent.node (R:=R)).
  Notation step := (Concurrent.step P eqv).
  Notation run := (Concurrent.run P eqv).
  Notation reachable := (ConcurrentSpec.reachable P eqv).
  Implicit Types (s : state) (n m : node) (a b h : addr) (t : tid) (x y : var) (l : label) (ls : list label).
  Let inv s (Hr : reachable s) := reach_inv P eqv good Heq HP s Hr.

  (** C27: no access to an erased entry, no missing value is read; *)
  Theorem C27_no_undefined_behaviour ls : run init ls ≠ Undef.
  Proof. intros H. pose proof (run_inv P eqv good Heq HP ls init (init_inv P eqv good)) as Hok. by rewrite H in Hok. Qed.

  (** an entry is erased only when nothing refers to it and no creation in
      progress has selected it, *)
  Theorem C27_erase_safe s l s' a n : reachable s → step s l = Next s' → ents s !! a = Some n → ents s' !! a = None →
    ¬ referenced P s a ∧ ¬ selected s a ∧ n_cnt n = 0%Z.
  Proof. intros Hr. by apply (erase_safe P eqv good HP s l s' a n (inv s Hr)). Qed.

  (** only by the garbage collector. *)
  Theorem C27_only_gc s l s' a n : reachable s → step s l = Next s' → ents s !! a = Some n → ents s' !! a = None →
    ∃ thr, l = LRun gc_tid thr.
  Proof. intros Hr. by apply (erase_gc P eqv good HP s l s' a n (inv s Hr)). Qed.

  (** C28: whatever threads do meanwhile, a pass erases every entry that is
      there when it begins and to which nothing refers until it ends; *)
  Theorem C28_pass s0 s1 ls s2 s3 a : reachable s0 → step s0 LBegin = Next s1 → run s1 ls = Next s2 → passes P eqv s1 ls = 0 →
    step s2 LEnd = Next s3 → is_Some (ents s0 !! a) →
    (∀ ls1 ls2 s', ls = ls1 ++ ls2 → run s1 ls1 = Next s' → ¬ referenced P s' a) → ents s3 !! a = None.
  Proof. intros Hr. by apply (pass_erases P eqv good Heq HP s0 s1 ls s2 s3 a (inv s0 Hr)). Qed.

  (** with all flyweights gone, as many passes as there are entries leave
      nothing, however entries are nested, *)
  Theorem C28_empties s ls s' : reachable s → (∀ t, t ≠ gc_tid → stack s t = []) → vars s = ∅ → Forall gc_label ls → run s ls = Next s' →
    size (ents s) < passes P eqv s ls ∨ (todo s = None ∧ size (ents s) ≤ passes P eqv s ls) → ents s' = ∅.
  Proof. intros Hr. by apply (passes_empty P eqv good Heq HP s ls s' (inv s Hr)). Qed.

  (** and any number of passes can be completed. *)
  Theorem C28_passes_complete s c : reachable s → (∀ t, t ≠ gc_tid → stack s t = []) →
    ∃ ls s', Forall gc_label ls ∧ run s ls = Next s' ∧ passes P eqv s ls = c.
  Proof. intros Hr. by apply (passes_exist P eqv good Heq HP c s (inv s Hr)). Qed.

  (** A pass in progress waits only for threads that can go on. *)
  Theorem C28_pass_progress s X : reachable s → todo s = Some X → stack s gc_tid = [] →
    (∃ s', step s LEnd = Next s') ∨ (∃ h s', h ∈ X ∧ step s (LLook h) = Next s') ∨
    ∃ t, t ≠ gc_tid ∧ ∀ thr, ∃ s', step s (LRun t thr) = Next s'.
  Proof. intros Hr. by apply (look_progress P eqv good Heq HP s X (inv s Hr) (heads_reach P eqv s Hr)). Qed.

  (** C30: objects behave as the plain keys an observer of the calls keeps for
      them; *)
  Theorem C30_transparency ls s x : run init ls = Next s →
    match value_of s x with
    | Some (h, r) => ∃ k, o_vals (watch P eqv init (Obs ∅ ∅) ls) !! x = Some k ∧ eqv (p_key P r) k = true
    | None => o_vals (watch P eqv init (Obs ∅ ∅) ls) !! x = None
    end.
  Proof. exact (transparency P eqv good Heq HP ls s x). Qed.

  (** equivalent keys are stored once; *)
  Theorem C30_sharing s x y hx rx hy ry : reachable s → value_of s x = Some (hx, rx) → value_of s y = Some (hy, ry) →
    (hx = hy ↔ eqv (p_key P rx) (p_key P ry) = true).
  Proof. intros Hr. by apply (sharing P eqv good Heq s x y hx rx hy ry (inv s Hr)). Qed.
  Theorem C30_unique s a b n m : reachable s → ents s !! a = Some n → ents s !! b = Some m →
    eqv (p_key P (n_rep n)) (p_key P (n_rep m)) = true → a = b.
  Proof. intros Hr. apply (i_uniq _ _ _ _ (inv s Hr)). Qed.

  (** address and contents stay while the object is not assigned to, swapped
      or destroyed; *)
  Theorem C30_stability s ls s' x h r : reachable s → Forall (λ l, touches x l = false) ls → run s ls = Next s' →
    value_of s x = Some (h, r) → value_of s' x = Some (h, r).
  Proof. intros Hr. by apply (stability P eqv good Heq HP ls s s' x h r (inv s Hr)). Qed.

  (** every object has a constructed value; *)
  Theorem C30_usable s x h : reachable s → vars s !! x = Some (Some h) →
    ∃ r, value_of s x = Some (h, r) ∧ is_Some (p_val P r) ∧ good r.
  Proof. intros Hr Hx. destruct (value_some P eqv good s x h (inv s Hr) Hx) as (n&_&H). by exists (n_rep n). Qed.

  (** get() reads it and changes nothing; *)
  Theorem C30_get s l s' x h r : step s l = Next s' → log s' = EvGet x h r :: log s →
    value_of s x = Some (h, r) ∧ is_Some (p_val P r) ∧ vars s' = vars s ∧ ents s' = ents s.
  Proof. exact (get_step P eqv s l s' x h r). Qed.

  (** a value is constructed only if there is none for an equivalent key,
      once between erasures; *)
  Theorem C30_build_only_on_miss s l s' h k : reachable s → step s l = Next s' → log s' = EvBuild h k :: log s →
    ∀ b m, ents s !! b = Some m → is_Some (p_val P (n_rep m)) → eqv (p_key P (n_rep m)) k = false.
  Proof. intros Hr Hs Hl. by destruct (build_step P eqv good Heq s l s' h k (inv s Hr) Hs Hl) as (t&n&_&_&_&_&H). Qed.
  Theorem C30_once_per_life s post pre h k : reachable s → log s = post ++ EvBuild h k :: pre → newest eqv k pre ≠ Some true.
  Proof. intros Hr. apply (proj2 (life P eqv good Heq HP s Hr)). Qed.

  (** a thread inside a call can go on, or waits for another that can; *)
  Theorem C30_progress s t thr : reachable s → stack s t ≠ [] → ¬ illegal s t →
    (∃ s', step s (LRun t thr) = Next s') ∨
    ∃ t', t' ≠ t ∧ (∃ a n, ents s !! a = Some n ∧ n_own n = Some t') ∧ ∀ thr', ∃ s', step s (LRun t' thr') = Next s'.
  Proof. intros Hr. by apply (progress P eqv good Heq HP s t thr (inv s Hr) (heads_reach P eqv s Hr)). Qed.

  (** and a call takes a bounded number of steps of its own, whatever other
      threads and the collector do. *)
  Theorem C30_bounded s t o s1 ls s2 : reachable s → step s (LStart t o) = Next s1 → Forall (λ l, ¬ starts t l) ls → run s1 ls = Next s2 →
    own_steps P eqv t s1 ls ≤ match o with ONew _ _ ys => 2 * length ys + 8 | _ => 6 end.
  Proof.
    intros Hr Hs Hl Hrun. pose proof (ConcurrentProofs.step_next P eqv good Heq HP s _ s1 (inv s Hr) Hs) as HI1.
    simpl in Hs. case_decide as Ht; [done|]. destruct (stack s t) eqn:E; [|done].
    pose proof (bounded_call P eqv good Heq HP t ls s1 s2 HI1 Ht Hl Hrun) as Hb.
    assert (lsum (weight P) (stack s1 t) ≤ match o with ONew _ _ ys => 2 * length ys + 8 | _ => 6 end); [|lia]. clear -Hs.
    assert (Hst : ∀ s1 new, stack (set_stack t new s1) t = new) by (intros; by rewrite stack_set, decide_True).
    assert (Hl : ∀ s1 new e, stack (add_log e (set_stack t new s1)) t = new) by (intros; unfold stack; simpl; by rewrite lookup_insert).
    destruct o; simpl in Hs; unfold add_ref in Hs; repeat case_match; simplify_eq; rewrite ?Hst, ?Hl, ?lsum_cons, ?lsum_nil; simpl; lia.
  Qed.

  (** C31: an exception leaves no object, *)
  Theorem C31_throw s l s' x : reachable s → step s l = Next s' → log s' = EvThrow x :: log s →
    vars s !! x = Some None ∧ vars s' = delete x (vars s) ∧ ents s' = ents s.
  Proof. intros Hr. by apply (throw_step P eqv good s l s' x (inv s Hr)). Qed.

  (** nothing refers to an entry without value, *)
  Theorem C31_residue s a n : reachable s → ents s !! a = Some n → p_val P (n_rep n) = None → ¬ referenced P s a ∧ n_cnt n = 0%Z.
  Proof. intros Hr. by apply (residue P eqv good s a n (inv s Hr)). Qed.

  (** and it gets one only by a construction that succeeds. *)
  Theorem C31_completed s l s' a n n' : reachable s → step s l = Next s' → ents s !! a = Some n → ents s' !! a = Some n' →
    p_val P (n_rep n) = None → is_Some (p_val P (n_rep n')) →
    ∃ t k, l = LRun t false ∧ log s' = EvBuild a k :: log s ∧ eqv (p_key P (n_rep n)) k = true.
  Proof.
    intros Hr Hs Hn Hn' Hv Hv'. destruct (value_appears P eqv good s l s' a n n' (inv s Hr) Hs Hn Hn' Hv Hv') as [k Hk].
    destruct (build_step P eqv good Heq s l s' a k (inv s Hr) Hs Hk) as (t&m&->&Hm&_&Hek&_). rewrite Hn in Hm. injection Hm as <-. eauto.
  Qed.

  (** All a creation run without interruption can do: throw, leaving objects
      and stored contents as they were except perhaps for one new entry
      without value, or give an object for the requested key. *)
  Theorem C31_outcome s t x p ys s1 cs s2 : reachable s → step s (LStart t (ONew x p ys)) = Next s1 →
    run s1 (map (LRun t) cs) = Next s2 → stack s2 t = [] →
    (∀ t', t' ≠ t → stack s2 t' = stack s t') ∧
    ((vars s2 = vars s ∧ log s2 = EvThrow x :: log s ∧
      (∀ b n, ents s !! b = Some n → ∃ n', ents s2 !! b = Some n' ∧ n_rep n' = n_rep n) ∧
      (∀ b n, ents s2 !! b = Some n → ents s !! b = None → p_val P (n_rep n) = None) ∧
      (true ∈ cs ∨ ∃ ks, Forall2 (λ y h, vars s !! y = Some (Some h)) ys ks ∧ p_make P p ks = None)) ∨
     ∃ ks r h bs, Forall2 (λ y h, vars s !! y = Some (Some h)) ys ks ∧ p_make P p ks = Some r ∧ vars s2 = <[x:=Some h]> (vars s) ∧
       log s2 = EvNew x (p_key P r) :: bs ++ log s ∧ same_reps s s2 (Some h) ∧ served P eqv s s2 p r h bs).
  Proof. intros Hr. exact (outcome P eqv good Heq HP s t x p ys s1 cs s2 (inv s Hr)). Qed.

  (** A creation that meets no exception and no busy entry succeeds, also
      after an earlier one for the same key threw. *)
  Theorem C31_retry s t x p ys ks r : reachable s → t ≠ gc_tid → stack s t = [] → (∀ a n, ents s !! a = Some n → n_own n = None) →
    vars s !! x = None → Forall2 (λ y h, vars s !! y = Some (Some h)) ys ks → p_make P p ks = Some r →
    ∃ s1 cs s2 h bs, step s (LStart t (ONew x p ys)) = Next s1 ∧ Forall (λ c, c = false) cs ∧
      run s1 (map (LRun t) cs) = Next s2 ∧ stack s2 t = [] ∧ vars s2 = <[x:=Some h]> (vars s) ∧ served P eqv s s2 p r h bs.
  Proof.
    intros Hr Ht Hst Hfree. apply (retry P eqv good Heq HP s t x p ys ks r (inv s Hr) (heads_reach P eqv s Hr) Ht Hst).
    intros a n t' Hn Ho. by rewrite (Hfree a n Hn) in Ho.
  Qed.

  (** C32: in every state, in particular in the middle of any copy,
      assignment, swap or get(), an entry to which something refers is there,
      has a value and a positive count; *)
  Theorem C32_alive s a : reachable s → referenced P s a → ∃ n, ents s !! a = Some n ∧ (0 < n_cnt n)%Z ∧ is_Some (p_val P (n_rep n)).
  Proof. intros Hr. exact (referenced_there P eqv good s a (inv s Hr)). Qed.

  (** the count is zero exactly if nothing refers to the entry, *)
  Theorem C32_zero s a n : reachable s → ents s !! a = Some n → (n_cnt n = 0%Z ↔ ¬ referenced P s a) ∧ ((0 < n_cnt n)%Z ↔ referenced P s a).
  Proof. intros Hr. exact (count_referenced P eqv good s a n (inv s Hr)). Qed.

  (** and is the number of flyweights to it when no call in progress holds
      any. *)
  Theorem C32_count_exact s a n : reachable s → ents s !! a = Some n → (∀ t i, i ∈ stack s t → ¬ holds P a i) → n_cnt n = Z.of_nat (objects P s a).
  Proof. intros Hr. exact (count_exact P eqv good s a n (inv s Hr)). Qed.
End Thms.

(** ** concrete cases *)
Lemma ents_by {R} (f : addr * node (R:=R) → bool) (E : gmap addr (node (R:=R))) :
  forallb f (map_to_list E) = true → ∀ a n, E !! a = Some n → f (a, n) = true.
Proof. intros H a n Hn. rewrite forallb_forall in H. apply H, elem_of_list_In, elem_of_map_to_list, Hn. Qed.
Lemma stacks_by {K A R} (s : Concurrent.state (K:=K) (A:=A) (R:=R)) :
  forallb (λ p : nat * list instr, match p.2 with [] => true | _ => false end) (map_to_list (stacks s)) = true → ∀ t, stack s t = [].
Proof.
  intros H t. unfold stack. destruct (stacks s !! t) as [k|] eqn:E; [|done]. simpl. rewrite forallb_forall in H.
  apply elem_of_map_to_list, elem_of_list_In, H in E. simpl in E. by destruct k.
Qed.
Ltac reach := apply crun_reachable; by vm_compute.

(** two racing creations of equivalent keys and a pass share one entry *)
Example race_ends : cdoes init race = true ∧ value_of (crun init race) 0 = Some (0, Policies.Prep (17, []) (Some 289)) ∧
  value_of (crun init race) 1 = Some (0, Policies.Prep (17, []) (Some 289)) ∧
  log (crun init race) = [EvNew 0 (7, []); EvNew 1 (17, []); EvBuild 0 (17, [])].
Proof. vm_compute. split_and!; reflexivity. Qed.
Example C30_transparency_ex :
  run iP ieq init demo = Next (crun init demo) ∧ value_of (crun init demo) 4 = Some (2, Policies.Prep (5, [0; 1]) (Some 25)) ∧
  o_vals (watch iP ieq init (Obs ∅ ∅) demo) !! 4 = Some (5, [0; 1]) ∧ o_vals (watch iP ieq init (Obs ∅ ∅) demo) !! 0 = Some (7, []).
Proof. split_and!; [by apply crun_ok; vm_compute|by vm_compute..]. Qed.
Example C30_sharing_ex : reachable iP ieq (crun init demo) ∧
  (value_of (crun init demo) 0 = Some (0, Policies.Prep (17, []) (Some 289)) ∧ value_of (crun init demo) 1 = Some (0, Policies.Prep (17, []) (Some 289))) ∧
  value_of (crun init demo) 2 = Some (1, Policies.Prep (3, []) (Some 9)).
Proof. split; [reach|]. vm_compute. split_and!; reflexivity. Qed.

(** all objects are destroyed; the composite's entry goes in the first pass
    and those of its parts in the same (they come later in it) or the next *)
Definition ending : list clabel := demo ++ concat (map (λ x, call 1 (ODestroy x)) [0; 1; 2; 3; 4]).
Definition dead : cstate := crun init ending.
Example dead_state : reachable iP ieq dead ∧ vars dead = ∅ ∧ (∀ t, stack dead t = []) ∧ todo dead = None ∧ size (ents dead) = 3 ∧
  n_cnt <$> ents dead !! 0 = Some 1%Z ∧ n_cnt <$> ents dead !! 2 = Some 0%Z.
Proof.
  split; [reach|]. split; [apply map_to_list_empty_iff; by vm_compute|]. split; [apply stacks_by; by vm_compute|].
  split_and!; by vm_compute.
Qed.
Example C28_empties_ex : Forall gc_label (pass 3 ++ pass 3) ∧ cdoes dead (pass 3 ++ pass 3) = true ∧
  passes iP ieq dead (pass 3 ++ pass 3) = 2 ∧ passes iP ieq dead (pass 3 ++ pass 3 ++ pass 3) = 3 ∧
  size (ents (crun dead (pass 3))) = 2 ∧ size (ents (crun dead (pass 3 ++ pass 3))) = 0 ∧ size (ents (crun dead (pass 3 ++ pass 3 ++ pass 3))) = 0.
Proof.
  split; [|split_and!; by vm_compute]. apply Forall_forall. intros l Hl. 
  assert (Hb : forallb (λ l : clabel, match l with LStart _ _ => false | LRun t _ => bool_decide (t = gc_tid) | _ => true end) (pass 3 ++ pass 3) = true) by by vm_compute.
  rewrite forallb_forall in Hb. apply elem_of_list_In, Hb in Hl. destruct l; simpl in *; try done. by apply bool_decide_eq_true in Hl.
Qed.
(** entry 2 is unreferenced from the beginning of the pass to its end *)
Example C28_pass_ex : cgoes dead LBegin = true ∧ is_Some (ents dead !! 2) ∧ ¬ referenced iP dead 2 ∧
  ents (crun dead (pass 3)) !! 2 = None ∧ is_Some (ents (crun dead (pass 3)) !! 1).
Proof.
  split; [by vm_compute|]. split; [vm_compute; by eexists|]. split; [|split; [by vm_compute|vm_compute; by eexists]].
  destruct (ents dead !! 2) as [n|] eqn:E; [|by vm_compute in E]. rewrite <- (proj1 (C32_zero iP ieq cgood ieq_eqv iP_laws dead 2 n (proj1 dead_state) E)).
  assert (n_cnt <$> ents dead !! 2 = Some 0%Z) as H by by vm_compute. rewrite E in H. by injection H.
Qed.
(** the collector has found count 0 and holds access; a creation of the same
    key has to wait, gets a new entry afterwards *)
Definition waiting : cstate :=
  crun dead ([LBegin; LLook 2; LRun gc_tid false; LStart 1 (ONew 8 4 []); LRun 1 false; LRun 1 false; LRun 1 false; LRun 1 false; LRun 1 false;
              LRun 1 false; LRun 1 false; LRun 1 false; LRun 1 false; LRun 1 false; LStart 2 (ONew 9 5 [8])]
             ++ replicate 5 (LRun 2 false)).
Example C27_erase_ex : reachable iP ieq waiting ∧ cgoes waiting (LRun gc_tid false) = true ∧ is_Some (ents waiting !! 2) ∧
  ents (cstep waiting (LRun gc_tid false)) !! 2 = None ∧ stack waiting gc_tid = [IErase 2] ∧ value_of waiting 8 = Some (3, Policies.Prep (4, []) (Some 16)).
Proof.
  split; [|vm_compute; split_and!; (reflexivity || by eexists)].
  unfold waiting, dead. eexists (_ ++ _). rewrite run_app, (crun_ok init ending) by (by vm_compute). apply crun_ok. by vm_compute.
Qed.

(** a thread waits for the collector, which can go on *)
Definition blocked : cstate :=
  crun init (call 1 (ONew 0 7 []) ++ call 1 (ODestroy 0) ++ [LBegin; LLook 0; LRun gc_tid false; LStart 2 (ONew 1 17 []); LRun 2 false]).
Example C30_progress_ex : reachable iP ieq blocked ∧ stack blocked 2 = [IEnter 1 17 (Policies.Prep (17, []) None)] ∧
  cgoes blocked (LRun 2 false) = false ∧ (n_own <$> ents blocked !! 0) = Some (Some gc_tid) ∧ cgoes blocked (LRun gc_tid false) = true ∧
  value_of (crun blocked (replicate 3 (LRun gc_tid false) ++ replicate 9 (LRun 2 false))) 1 = Some (1, Policies.Prep (17, []) (Some 289)).
Proof. split; [reach|]. vm_compute. split_and!; reflexivity. Qed.
Example C28_pass_progress_ex : elements <$> todo (crun init (call 1 (ONew 0 7 []) ++ [LBegin; LStart 2 (ONew 1 17 []); LRun 2 false; LRun 2 false])) = Some [0] ∧
  cgoes (crun init (call 1 (ONew 0 7 []) ++ [LBegin; LStart 2 (ONew 1 17 []); LRun 2 false; LRun 2 false])) (LLook 0) = false.
Proof. split; [|by vm_compute]. by vm_compute. Qed.

(** stability under another thread's creations, destructions and a pass *)
Definition others : list clabel := call 1 (ODestroy 1) ++ call 1 (ONew 7 7 []) ++ call 1 (ODestroy 2) ++ pass 5.
Example C30_stability_ex : Forall (λ l, touches 4 l = false) others ∧ cdoes (crun init demo) others = true ∧
  value_of (crun (crun init demo) others) 4 = Some (2, Policies.Prep (5, [0; 1]) (Some 25)).
Proof. split; [|split; by vm_compute]. unfold others, call, pass. repeat constructor. Qed.
(** swap, self-swap, assignment and get() *)
Example C32_ex : let s := crun init (demo ++ call 1 (OSwap 0 2) ++ call 1 (OSwap 0 0) ++ call 1 (OAssign 2 2) ++ call 1 (OAssign 1 3) ++ call 2 (OGet 0)) in
  cdoes init (demo ++ call 1 (OSwap 0 2) ++ call 1 (OSwap 0 0) ++ call 1 (OAssign 2 2) ++ call 1 (OAssign 1 3) ++ call 2 (OGet 0)) = true ∧
  fst <$> value_of s 0 = Some 1 ∧ fst <$> value_of s 2 = Some 0 ∧ fst <$> value_of s 1 = Some 2 ∧
  head (log s) = Some (EvGet 0 1 (Policies.Prep (3, []) (Some 9))) ∧
  n_cnt <$> ents s !! 0 = Some 2%Z ∧ n_cnt <$> ents s !! 1 = Some 2%Z ∧ n_cnt <$> ents s !! 2 = Some 3%Z ∧
  objects iP s 0 = 2 ∧ objects iP s 1 = 2 ∧ objects iP s 2 = 3.
Proof. vm_compute. split_and!; reflexivity. Qed.
(** in the middle of self-assignment and swap *)
Example C32_middle_ex : let s := crun init (call 1 (ONew 0 7 []) ++ [LStart 1 (OAssign 0 0)]) in
  let s' := crun init (call 1 (ONew 0 7 []) ++ call 1 (ONew 1 8 []) ++ [LStart 1 (OSwap 0 1); LRun 1 false; LRun 1 false]) in
  n_cnt <$> ents s !! 0 = Some 2%Z ∧ n_cnt <$> ents s' !! 0 = Some 1%Z ∧ n_cnt <$> ents s' !! 1 = Some 2%Z ∧ vars s' !! 0 = Some None.
Proof. vm_compute. split_and!; reflexivity. Qed.

(** a construction that throws leaves an entry without value, which a later
    creation completes *)
Example C31_ex : reachable iP ieq (crun init oops) ∧ vars (crun init oops) !! 0 = None ∧
  n_rep <$> ents (crun init oops) !! 0 = Some (Policies.Prep (7, []) None) ∧ log (crun init oops) = [EvThrow 0] ∧
  value_of (crun init (oops ++ call 2 (ONew 3 27 []))) 3 = Some (0, Policies.Prep (7, []) (Some 49)) ∧
  ents (crun init (oops ++ pass 1)) !! 0 = None.
Proof. split; [reach|]. vm_compute. split_and!; reflexivity. Qed.
Example C31_retry_ex : (∀ a n, ents (crun init oops) !! a = Some n → n_own n = None) ∧ (∀ t, stack (crun init oops) t = []) ∧
  p_make iP 27 [] = Some (Policies.Prep (27, []) None).
Proof.
  split; [|split; [apply stacks_by; by vm_compute|done]]. intros a n Hn.
  pose proof (ents_by (λ p, match n_own p.2 with None => true | _ => false end) (ents (crun init oops)) ltac:(by vm_compute) a n Hn) as H.
  simpl in H. by destruct (n_own n).
Qed.
(** ... and while it constructs *)
Example C31_completed_ex : let s := crun init (oops ++ [LStart 2 (ONew 3 27 []); LRun 2 false; LRun 2 false]) in
  cgoes s (LRun 2 false) = true ∧ n_rep <$> ents s !! 0 = Some (Policies.Prep (7, []) None) ∧
  log (cstep s (LRun 2 false)) = EvBuild 0 (27, []) :: log s ∧ n_rep <$> ents (cstep s (LRun 2 false)) !! 0 = Some (Policies.Prep (7, []) (Some 49)).
Proof. vm_compute. split_and!; reflexivity. Qed.
(** erased and built again *)
Example C30_once_ex : log (crun init (call 1 (ONew 0 7 []) ++ call 1 (ODestroy 0) ++ pass 1 ++ call 1 (ONew 0 17 []))) =
  [EvNew 0 (17, []); EvBuild 1 (17, []); EvErase 0 (7, []); EvDestroy 0; EvNew 0 (7, []); EvBuild 0 (7, [])].
Proof. by vm_compute. Qed.
Example C30_bounded_ex : own_steps iP ieq 1 (crun init (call 1 (ONew 0 7 []) ++ call 1 (ONew 2 8 []) ++ [LStart 1 (ONew 5 9 [0; 2])])) (replicate 50 (LRun 1 false)) = 8.
Proof. by vm_compute. Qed.
(** the default policy and the variant policy obey the laws *)
Example variant_laws : policy_ok (λ a b : nat, a =? b) (λ _, True)
  (Policies.variant_policy (λ (a : nat) ks, match ks with [] => Some a | _ => None end) (λ _, []) (λ k, (k, k * k)) fst).
Proof.
  apply variant_policy_ok; try done.
  - split; [apply Nat.eqb_refl|intros ? ?; rewrite !Nat.eqb_eq; congruence|intros ? ? ?; rewrite !Nat.eqb_eq; congruence].
  - intros a [|] k H; by simplify_eq.
  - intros k. apply Nat.eqb_refl.
Qed.

Print Assumptions C27_no_undefined_behaviour.
Print Assumptions C27_erase_safe.
Print Assumptions C27_only_gc.
Print Assumptions C28_pass.
Print Assumptions C28_empties.
Print Assumptions C28_passes_complete.
Print Assumptions C28_pass_progress.
Print Assumptions C30_transparency.
Print Assumptions C30_sharing.
Print Assumptions C30_unique.
Print Assumptions C30_stability.
Print Assumptions C30_usable.
Print Assumptions C30_get.
Print Assumptions C30_build_only_on_miss.
Print Assumptions C30_once_per_life.
Print Assumptions C30_progress.
Print Assumptions C30_bounded.
Print Assumptions C31_throw.
Print Assumptions C31_residue.
Print Assumptions C31_completed.
Print Assumptions C31_outcome.
Print Assumptions C31_retry.
Print Assumptions C32_alive.
Print Assumptions C32_zero.
Print Assumptions C32_count_exact.
